(** What Code prints is the tree of [tg], written as tokens (C37). *)
From Coq Require Import String.
From Verif Require Import Base Token Utf8 Utf8Proofs Scanner ScannerSpec ScannerProofs ScannerProofs2 ScannerProofs3 ScannerProofs4
  ScannerProofs5 ScanDet ScanRun ScanInit ScanObs ScanClean Tokenize TokenizeProofs PropScan PropScan2
  Grammar MatchProofs Matcher Compiler GramSyntax CompilerProofs CompilerTop CompilerMore CompilerDen PrintBack.

Definition txt (l : list written) : bytes := flat_map (fun w => w_gap w ++ w_text w) l.
Definition sg (l : list written) : list sig := map (fun w => (w_kind w, if has_lit (w_kind w) then w_lit w else [])) l.
Definition pad (b : bytes) (l : list written) : list written :=
  match l with [] => [] | w :: r => mkWr (b ++ w_gap w) (w_kind w) (w_lit w) (w_text w) :: r end.
Lemma txt_app : forall a b, txt (a ++ b) = txt a ++ txt b.
Proof. intros. unfold txt. apply flat_map_app. Qed.
Lemma txt_pad : forall b l, l <> [] -> txt (pad b l) = b ++ txt l.
Proof. intros b [|w r] H; [contradiction|]. unfold txt, pad. cbn [flat_map w_gap w_text]. rewrite <- !app_assoc. reflexivity. Qed.
Lemma sg_app : forall a b, sg (a ++ b) = sg a ++ sg b.
Proof. intros. unfold sg. apply map_app. Qed.
Lemma sg_pad : forall b l, sg (pad b l) = sg l.
Proof. intros b [|w r]; reflexivity. Qed.
Definition sym (k c : Z) : written := mkWr [] k [] [c].
Definition in_parens (b : bool) (l : list written) : list written := if b then sym LPAREN 40 :: l ++ [sym RPAREN 41] else l.

Section Toks.
Context {A T : Type}.
Notation G := (gr A T).
Variables isL isD : Z -> bool.
Variable tk : tokener.
Notation prints := (@prints A T isL isD tk).
Notation tg := (@tg A T tk).
Notation word := (word tk).

Fixpoint toks (lvl : Z) (g : G) : list written :=
  match g with
  | GNil | GEOF => []
  | GTok k => [mkWr [] (word_kind (word k)) (word k) (word k)]
  | GTrue => [mkWr [] INT [49] [49]]
  | GPeek g1 => sym 64 64 :: toks lvlRepeat g1
  | GNot g1 => sym 126 126 :: toks lvlRepeat g1
  | GRep0 _ g1 => sym 42 42 :: toks lvlRepeat g1
  | GRep1 _ g1 => sym 43 43 :: toks lvlRepeat g1
  | GRep01 _ g1 => sym 63 63 :: toks lvlRepeat g1
  | GAnd gs =>
      in_parens (lvlAnd <? lvl)
        ((fix go (first : bool) (gs : list G) : list written :=
           match gs with
           | [] => []
           | g1 :: gs' => if is_nil g1 then go false gs' else (if first then toks lvlAnd g1 else pad [32] (toks lvlAnd g1)) ++ go false gs'
           end) true gs)
  | GOr gs =>
      in_parens (lvlOr <? lvl)
        ((fix go (first : bool) (gs : list G) : list written :=
           match gs with
           | [] => []
           | g1 :: gs' => (if first then toks lvlOr g1 else mkWr [32] OR [] [124] :: pad [32] (toks lvlOr g1)) ++ go false gs'
           end) true gs)
  | GList _ a b z =>
      in_parens (lvlList <? lvl)
        (toks lvlList a ++ (if z then mkWr [32] REM_ASSIGN [] [37; 61] else mkWr [32] REM [] [37]) :: pad [32] (toks lvlList b))
  | GVar v | GNamed v _ => [mkWr [] IDENT v v]
  | GAct g1 _ | GTrans g1 _ => toks lvl g1
  end.
Definition and_toks := fix go (first : bool) (gs : list G) : list written :=
           match gs with
           | [] => []
           | g1 :: gs' => if is_nil g1 then go false gs' else (if first then toks lvlAnd g1 else pad [32] (toks lvlAnd g1)) ++ go false gs'
           end.
Definition or_toks := fix go (first : bool) (gs : list G) : list written :=
           match gs with
           | [] => []
           | g1 :: gs' => (if first then toks lvlOr g1 else mkWr [32] OR [] [124] :: pad [32] (toks lvlOr g1)) ++ go false gs'
           end.
Lemma toks_and : forall lvl gs, toks lvl (GAnd gs) = in_parens (lvlAnd <? lvl) (and_toks true gs).
Proof. reflexivity. Qed.
Lemma toks_or : forall lvl gs, toks lvl (GOr gs) = in_parens (lvlOr <? lvl) (or_toks true gs).
Proof. reflexivity. Qed.

Lemma parens_ne : forall b l, l <> [] -> in_parens b l <> [].
Proof. intros [] l H; [discriminate|exact H]. Qed.
Lemma pad_ne : forall b l, l <> [] -> pad b l <> [].
Proof. intros b [|w r] H; [contradiction|discriminate]. Qed.
Lemma toks_ne : forall g, prints g -> forall lvl, toks lvl g <> [].
Proof.
  induction g using gr_ind'; intros HP lvl; try (destruct HP; fail); try discriminate.
  - apply prints_and in HP. destruct HP as (H1 & H2). rewrite toks_and. apply parens_ne. rewrite Forall_forall in *.
    generalize true. induction gs as [|g gs IH]; [discriminate|]. intro first. cbn [and_toks existsb] in *. fold and_toks.
    destruct (is_nil g) eqn:N.
    + apply IH; auto; intros x Hx; [apply H|apply H2]; right; assumption.
    + intro X. apply app_eq_nil in X. destruct X as (X & _). pose proof (H g (or_introl eq_refl) (H2 g (or_introl eq_refl) N) lvlAnd) as Y.
      destruct first; [contradiction|]. revert X. apply pad_ne. exact Y.
  - apply prints_or in HP. destruct HP as (H1 & H2). rewrite toks_or. apply parens_ne. destruct gs as [|g gs]; [contradiction|]. cbn [or_toks].
    rewrite Forall_forall in *. intro X. apply app_eq_nil in X. destruct X as (X & _). exact (H g (or_introl eq_refl) (H2 g (or_introl eq_refl)) lvlOr X).
  - cbn [toks]. apply parens_ne. intro X. apply app_eq_nil in X. destruct X as (_ & X). discriminate.
  - exact (IHg HP lvl).
  - exact (IHg HP lvl).
Qed.

(** ** The text *)
Lemma paren_txt : forall b l x, txt l = x -> paren b (Val x) = Val (txt (in_parens b l)).
Proof.
  intros [] l x <-; unfold paren, in_parens; [|reflexivity]. change (txt (sym LPAREN 40 :: l ++ [sym RPAREN 41])) with (40 :: txt (l ++ [sym RPAREN 41])). rewrite txt_app. reflexivity.
Qed.
Lemma marshal_toks : forall g, prints g -> forall lvl, marshal (tk_ttol tk) lvl g = Val (txt (toks lvl g)).
Proof.
  assert (C : forall w l, txt (w :: l) = (w_gap w ++ w_text w) ++ txt l) by reflexivity.
  induction g using gr_ind'; intros HP lvl; try (destruct HP; fail); try reflexivity.
  - destruct HP as (l & HP & _). cbn [marshal toks]. unfold txt. cbn [flat_map w_gap w_text app]. rewrite app_nil_r. unfold PrintBack.word. rewrite HP. reflexivity.
  - cbn [marshal toks]. rewrite IHg by exact HP. reflexivity.
  - cbn [marshal toks]. rewrite IHg by exact HP. reflexivity.
  - apply prints_and in HP. destruct HP as (_ & H2). rewrite toks_and. cbn [marshal].
    match goal with |- paren _ (?go true gs) = _ => assert (X : forall first, go first gs = Val (txt (and_toks first gs))) end.
    { clear - H H2 C. rewrite Forall_forall in *. induction gs as [|g gs IH]; intro first; [reflexivity|]. cbn [and_toks]. fold and_toks.
      assert (E : forall f, _ f gs = Val (txt (and_toks f gs))) by (apply IH; intros x Hx; [apply H|apply H2]; right; assumption). clear IH.
      destruct (is_nil g) eqn:N; [destruct g; try discriminate; apply E|].
      pose proof (H2 g (or_introl eq_refl) N) as PG. pose proof (H g (or_introl eq_refl) PG lvlAnd) as E1. rewrite txt_app.
      destruct g; try discriminate; rewrite E1, E; cbn [bindm]; destruct first; try reflexivity; rewrite txt_pad by (apply toks_ne; exact PG); reflexivity. }
    rewrite X. apply paren_txt. reflexivity.
  - apply prints_or in HP. destruct HP as (_ & H2). rewrite toks_or. cbn [marshal].
    match goal with |- paren _ (?go true gs) = _ => assert (X : forall first, go first gs = Val (txt (or_toks first gs))) end.
    { clear - H H2 C. rewrite Forall_forall in *. induction gs as [|g gs IH]; intro first; [reflexivity|]. cbn [or_toks]. fold or_toks.
      assert (E : forall f, _ f gs = Val (txt (or_toks f gs))) by (apply IH; intros x Hx; [apply H|apply H2]; right; assumption). clear IH.
      pose proof (H2 g (or_introl eq_refl)) as PG. pose proof (H g (or_introl eq_refl) PG lvlOr) as E1. rewrite txt_app.
      rewrite E1, E; cbn [bindm]; destruct first; try reflexivity. rewrite C, txt_pad by (apply toks_ne; exact PG). cbn [w_gap w_text]. rewrite <- !app_assoc. reflexivity. }
    rewrite X. apply paren_txt. reflexivity.
  - cbn [marshal toks]. rewrite IHg by exact HP. reflexivity.
  - cbn [marshal toks]. destruct HP. rewrite IHg by assumption. reflexivity.
  - cbn [marshal toks]. rewrite IHg by exact HP. reflexivity.
  - destruct HP as (Ha & Hb & _). cbn [marshal toks]. rewrite IHg1, IHg2 by assumption. cbn [bindm]. apply paren_txt. rewrite txt_app, C, txt_pad by (apply toks_ne; exact Hb).
    match goal with |- context [if ?z then [61] else []] => destruct z end; cbn [w_gap w_text]; rewrite <- !app_assoc; reflexivity.
  - cbn [marshal toks]. unfold txt. cbn. rewrite app_nil_r. reflexivity.
  - cbn [marshal toks]. unfold txt. cbn. rewrite app_nil_r. reflexivity.
  - exact (IHg HP lvl).
  - exact (IHg HP lvl).
Qed.

(** ** The tokens are those of the tree *)
Definition rl (lvl : Z) (s : shape) (t : gram) : list sig :=
  if lvl <? 2 then r_gram t else if lvl =? 2 then r_expr (as_expr s t) else if lvl =? 3 then r_item (as_item s t) else r_factor (as_factor s t).
Lemma r_paren : forall t, r_factor (FParen t) = op LPAREN :: r_gram t ++ [op RPAREN].
Proof. reflexivity. Qed.
Lemma rl_one : forall lvl f, rl lvl ShOne (one f) = r_factor f.
Proof.
  intros lvl f. unfold rl. destruct (lvl <? 2); [|destruct (lvl =? 2); [|destruct (lvl =? 3)]]; try reflexivity; unfold one, r_gram, r_expr; cbn [as_expr as_item hd map joined flat_map r_item];
    rewrite ?app_nil_r; reflexivity.
Qed.
Lemma rl_paren : forall lvl s t l, sg l = r_gram t ->
  (s = ShOr \/ s = ShAnd \/ s = ShList) ->
  let b := match s with ShOr => 1 | ShAnd => 2 | _ => 3 end in
  (lvl <= b -> rl lvl s t = r_gram t) ->
  sg (in_parens (b <? lvl) l) = rl lvl s t.
Proof.
  intros lvl s t l E Hs b Hb. destruct (b <? lvl) eqn:B.
  - unfold in_parens. cbn [sg map]. fold (sg (l ++ [sym RPAREN 41])). rewrite sg_app, E. unfold rl.
    assert (R1 : r_expr [ITerm (FParen t) []] = op LPAREN :: r_gram t ++ [op RPAREN]) by (unfold r_expr; cbn [flat_map r_item]; rewrite !app_nil_r; exact (r_paren t)).
    assert (R2 : r_item (ITerm (FParen t) []) = op LPAREN :: r_gram t ++ [op RPAREN]) by (cbn [flat_map r_item]; rewrite !app_nil_r; exact (r_paren t)).
    apply Z.ltb_lt in B. destruct Hs as [-> | [-> | ->]]; subst b; cbn [as_expr as_item as_factor].
    + replace (lvl <? 2) with false by lia. destruct (lvl =? 2); [rewrite R1; reflexivity|]. destruct (lvl =? 3); [rewrite R2|rewrite r_paren]; reflexivity.
    + replace (lvl <? 2) with false by lia. replace (lvl =? 2) with false by lia. destruct (lvl =? 3); [rewrite R2|rewrite r_paren]; reflexivity.
    + replace (lvl <? 2) with false by lia. replace (lvl =? 2) with false by lia. replace (lvl =? 3) with false by lia. rewrite r_paren. reflexivity.
  - unfold in_parens. rewrite Hb by lia. exact E.
Qed.
Lemma joined_app : forall sep a b, a <> [] -> b <> [] -> joined sep (a ++ b) = joined sep a ++ sep ++ joined sep b.
Proof.
  intros sep a b Ha Hb. induction a as [|x a IH]; [contradiction|]. destruct a as [|y a].
  - cbn [app joined]. destruct b; [contradiction|]. reflexivity.
  - change ((x :: y :: a) ++ b) with (x :: (y :: a) ++ b). change (joined sep (x :: y :: a)) with (x ++ sep ++ joined sep (y :: a)).
    rewrite <- !app_assoc, <- IH by discriminate. reflexivity.
Qed.
Lemma sg_sym : forall k c l, has_lit k = false -> sg (sym k c :: l) = op k :: sg l.
Proof. intros k c l H. unfold sg, sym. cbn [map w_kind w_lit]. rewrite H. reflexivity. Qed.
Lemma toks_sg : forall g, prints g -> forall lvl, sg (toks lvl g) = rl lvl (shape_of g) (tg g).
Proof.
  induction g using gr_ind'; intros HP lvl; try (destruct HP; fail).
  - cbn [toks shape_of PrintBack.tg]. rewrite rl_one. destruct HP as (l & Hl). assert (W : word k = l) by (unfold PrintBack.word; destruct Hl as (-> & _); reflexivity). rewrite W.
    clear. unfold sg, word_factor, word_kind. destruct l as [|c l]; [reflexivity|]. cbn [map w_kind w_lit].
    repeat match goal with |- context [match ?x with _ => _ end] => is_var x; destruct x end; reflexivity.
  - cbn [toks shape_of PrintBack.tg]. rewrite rl_one. reflexivity.
  - cbn [toks shape_of PrintBack.tg]. rewrite rl_one. cbn [r_factor]. rewrite sg_sym by reflexivity. rewrite (IHg HP). reflexivity.
  - cbn [toks shape_of PrintBack.tg]. rewrite rl_one. cbn [r_factor]. rewrite sg_sym by reflexivity. rewrite (IHg HP). reflexivity.
  - rewrite toks_and. pose proof (prints_tree _ _ _ _ HP) as (OK & _). apply prints_and in HP. destruct HP as (_ & H2).
    apply (rl_paren lvl ShAnd).
    + cbn [PrintBack.tg]. unfold r_gram. cbn [map joined]. generalize true. clear OK. rewrite Forall_forall in *. induction gs as [|g gs IH]; intro first; [reflexivity|].
      cbn [and_toks flat_map]. fold and_toks.
      assert (E : forall f, sg (and_toks f gs) = r_expr (flat_map (fun g => if is_nil g then [] else as_expr (shape_of g) (tg g)) gs)) by (apply IH; intros x Hx; [apply H|apply H2]; right; assumption).
      destruct (is_nil g) eqn:N; [apply E|]. rewrite sg_app, E. unfold r_expr. rewrite flat_map_app. f_equal.
      pose proof (H g (or_introl eq_refl) (H2 g (or_introl eq_refl) N) 2) as E1. change lvlAnd with 2. destruct first; rewrite ?sg_pad; exact E1.
    + auto.
    + cbn [PrintBack.tg]. intro L. unfold rl. destruct (lvl <? 2) eqn:L1; [reflexivity|]. replace (lvl =? 2) with true by lia. cbn [as_expr hd]. reflexivity.
  - rewrite toks_or. pose proof (prints_tree _ _ _ _ HP) as (OK & _). apply prints_or in HP. destruct HP as (H1 & H2).
    apply (rl_paren lvl ShOr).
    + cbn [PrintBack.tg]. unfold r_gram. clear OK. rewrite Forall_forall in *.
      assert (Q : forall gs, (forall g, In g gs -> prints g -> forall lvl, sg (toks lvl g) = rl lvl (shape_of g) (tg g)) -> (forall g, In g gs -> prints g) ->
        sg (or_toks false gs) = match gs with [] => [] | _ => op OR :: joined [op OR] (map r_expr (flat_map tg gs)) end).
      { clear. induction gs as [|g gs IH]; intros H H2; [reflexivity|]. cbn [or_toks flat_map]. fold or_toks. rewrite sg_app, IH by (intros x Hx; first [apply H2; right; assumption|apply H; right; assumption]).
        pose proof (H g (or_introl eq_refl) (H2 g (or_introl eq_refl)) 1) as E1. change (rl 1 (shape_of g) (tg g)) with (r_gram (tg g)) in E1.
        cbn [sg map]. fold (sg (pad [32] (toks lvlOr g))). rewrite sg_pad. change lvlOr with 1. rewrite E1. cbn [app]. unfold op at 1. f_equal.
        destruct gs as [|g' gs]; [cbn [flat_map]; rewrite !app_nil_r; reflexivity|]. rewrite map_app, joined_app; [reflexivity| |].
        - pose proof (prints_tree _ _ _ _ (H2 g (or_introl eq_refl))) as (O & _). destruct (tg g); discriminate.
        - pose proof (prints_tree _ _ _ _ (H2 g' (or_intror (or_introl eq_refl)))) as (O & _). cbn [flat_map]. destruct (tg g'); discriminate. }
      destruct gs as [|g gs]; [contradiction|]. cbn [or_toks flat_map]. fold or_toks. rewrite sg_app, Q by (intros x Hx; first [apply H2; right; assumption|apply H; right; assumption]).
      pose proof (H g (or_introl eq_refl) (H2 g (or_introl eq_refl)) 1) as E1. change (rl 1 (shape_of g) (tg g)) with (r_gram (tg g)) in E1. change lvlOr with 1. rewrite E1.
      destruct gs as [|g' gs]; [cbn [flat_map]; rewrite !app_nil_r; reflexivity|]. rewrite map_app, joined_app; [reflexivity| |].
      * pose proof (prints_tree _ _ _ _ (H2 g (or_introl eq_refl))) as (O & _). destruct (tg g); discriminate.
      * pose proof (prints_tree _ _ _ _ (H2 g' (or_intror (or_introl eq_refl)))) as (O & _). cbn [flat_map]. destruct (tg g'); discriminate.
    + auto.
    + intro L. unfold rl. replace (lvl <? 2) with true by lia. reflexivity.
  - cbn [toks shape_of PrintBack.tg]. rewrite rl_one. cbn [r_factor]. rewrite sg_sym by reflexivity. rewrite (IHg HP). reflexivity.
  - cbn [toks shape_of PrintBack.tg]. rewrite rl_one. cbn [r_factor]. rewrite sg_sym by reflexivity. destruct HP as (HP & _). rewrite (IHg HP). reflexivity.
  - cbn [toks shape_of PrintBack.tg]. rewrite rl_one. cbn [r_factor]. rewrite sg_sym by reflexivity. rewrite (IHg HP). reflexivity.
  - destruct HP as (Ha & Hb & Hl). cbn [toks shape_of PrintBack.tg]. match goal with |- context [if ?b then SList0 else SList] => rename b into z end.
    pose proof (IHg1 Ha 3) as E1. pose proof (IHg2 Hb 3) as E2. change lvlList with 3.
    destruct (tree_item _ _ (prints_tree _ _ _ _ Ha)) as (f & ss & Hf & _).
    assert (E3 : sg (toks 3 g2) = r_factor (as_factor (shape_of g2) (tg g2))).
    { rewrite E2. change (rl 3 (shape_of g2) (tg g2)) with (r_item (as_item (shape_of g2) (tg g2))). pose proof (prints_tree _ _ _ _ Hb) as (_ & _ & _ & O).
      destruct (shape_of g2) eqn:S; try (cbn [as_item as_factor r_item flat_map]; rewrite app_nil_r; reflexivity).
      - exfalso. clear - Hl S. induction g2; try discriminate; cbn in *; auto.
      - destruct (O eq_refl) as (f' & Hf'). rewrite Hf'. cbn [as_item as_factor hd r_item flat_map]. rewrite app_nil_r. reflexivity. }
    change (rl 3 (shape_of g1) (tg g1)) with (r_item (as_item (shape_of g1) (tg g1))) in E1. rewrite Hf in *.
    assert (E4 : r_item (add_suffix (ITerm f ss) ((if z then SList0 else SList) (as_factor (shape_of g2) (tg g2)))) = r_item (ITerm f ss) ++ op (if z then REM_ASSIGN else REM) :: r_factor (as_factor (shape_of g2) (tg g2))).
    { cbn [add_suffix r_item]. rewrite flat_map_app, <- app_assoc. f_equal. f_equal. destruct z; cbn [flat_map r_suffix]; rewrite app_nil_r; reflexivity. }
    apply (rl_paren lvl ShList).
    + unfold r_gram, r_expr. cbn [map joined flat_map]. rewrite app_nil_r, E4, sg_app. f_equal; [exact E1|].
      destruct z; cbn [sg map]; fold (sg (pad [32] (toks 3 g2))); rewrite sg_pad, E3; reflexivity.
    + auto.
    + intro L. unfold rl. destruct (lvl <? 2) eqn:L1; [reflexivity|]. unfold r_gram, r_expr. destruct (lvl =? 2) eqn:L2; [reflexivity|]. replace (lvl =? 3) with true by lia. cbn [as_item hd map joined flat_map]. rewrite app_nil_r. reflexivity.
  - cbn [toks shape_of PrintBack.tg]. rewrite rl_one. reflexivity.
  - cbn [toks shape_of PrintBack.tg]. rewrite rl_one. reflexivity.
  - exact (IHg HP lvl).
  - exact (IHg HP lvl).
Qed.

(** ** Every token is legal and apart from what follows *)
Definition stop (after : bytes) : Prop := then_space after \/ exists c r, after = c :: r /\ (c = 41 \/ c = 59).
Lemma stop_apart : forall k t after, stop after -> apart k t after.
Proof. intros k t after [H|(c & r & H & H')]; [apply Ap_space; exact H|eapply Ap_close; eauto]. Qed.
Lemma wt_app : forall a b tail, written_text (a ++ b) tail = written_text a (written_text b tail).
Proof. intros. unfold written_text. rewrite flat_map_app, <- app_assoc. reflexivity. Qed.
Lemma wt_cons : forall w b tail, written_text (w :: b) tail = w_gap w ++ w_text w ++ written_text b tail.
Proof. intros. unfold written_text. cbn [flat_map]. rewrite <- !app_assoc. reflexivity. Qed.
Lemma apart_app : forall a b tail, all_apart (a ++ b) tail <-> all_apart a (written_text b tail) /\ all_apart b tail.
Proof. induction a as [|w a IH]; intros b tail; cbn [app all_apart]; [tauto|]. rewrite IH, wt_app. tauto. Qed.
Lemma apart_pad : forall b l tail, all_apart (pad b l) tail <-> all_apart l tail.
Proof. intros b [|w l] tail; reflexivity. Qed.
Lemma stop_pad : forall l tail, l <> [] -> stop (written_text (pad [32] l) tail).
Proof. intros [|w l] tail H; [contradiction|]. left. unfold pad. rewrite wt_cons. cbn. unfold ws. auto. Qed.
Lemma op_apart : forall k t after, In (k, t) optab -> t <> [46] -> t <> [47] -> (forall c r, after = c :: r -> ~ In c (op_next t)) -> apart k t after.
Proof.
  intros k t after H H1 H2 H3. apply Ap_op; auto; [apply op_in; exact H|]. intros c r E (k' & t' & O). apply (H3 c r E). apply op_out in O.
  unfold op_next. apply in_flat_map. exists (k', t ++ c :: t'). split; [exact O|]. cbn [snd]. rewrite after_prefix_app. left. reflexivity.
Qed.
Lemma parens_apart : forall b l tail, l <> [] -> (forall tail, stop tail -> all_apart l tail) -> stop tail -> all_apart (in_parens b l) tail.
Proof.
  intros [] l tail N H S; [|auto]. unfold in_parens. cbn [all_apart]. split.
  - apply op_apart; [vm_compute; tauto|discriminate|discriminate|]. intros c r _. vm_compute. tauto.
  - apply apart_app. split; [|split; [apply stop_apart; exact S|exact Logic.I]]. apply H. right. exists 41. eexists. split; [reflexivity|]. auto.
Qed.
Definition head_ok (rep1 : bool) (t : bytes) : Prop := exists c r, t = c :: r /\ c <> 61 /\ (c = 43 -> rep1 = true).
Lemma ident_head : forall n, ident isL isD n -> clean n -> exists c r, n = c :: r /\ c <> 61 /\ c <> 43.
Proof.
  intros n (N & I0 & _) C. destruct n as [|c r]; [contradiction|]. exists c, r. split; [reflexivity|].
  split; intro E; subst c; rewrite first_ascii in I0 by lia; unfold letter in I0; lia.
Qed.
Lemma toks_head : forall g, prints g -> forall lvl tail, 3 < lvl -> head_ok (is_rep1 g) (written_text (toks lvl g) tail).
Proof.
  assert (P : forall (b : bool) l tail r1, b = true -> head_ok r1 (written_text (in_parens b l) tail)).
  { intros b l tail r1 ->. unfold in_parens. rewrite wt_cons. exists 40. eexists. split; [reflexivity|]. split; [lia|discriminate]. }
  assert (Sy : forall k c l tail, c <> 61 -> forall b, (c = 43 -> b = true) -> head_ok b (written_text (sym k c :: l) tail)).
  { intros k c l tail Hc b Hb. rewrite wt_cons. exists c. eexists. split; [reflexivity|]. auto. }
  induction g using gr_ind'; intros HP lvl tail HL; try (destruct HP; fail); cbn [toks is_rep1]; try (apply Sy; [discriminate|auto; discriminate]).
  - destruct HP as (l & Hl). assert (W : word k = l) by (unfold PrintBack.word; destruct Hl as (-> & _); reflexivity). rewrite W. rewrite wt_cons. cbn [w_gap w_text app].
    destruct Hl as (_ & (HW & HU) & _). unfold word_kind in *.
    assert (X : exists c r, l = c :: r /\ c <> 61 /\ c <> 43).
    { destruct l as [|c l].
      - destruct (HU eq_refl) as (_ & (X & _)). destruct X as (X & _). contradiction.
      - destruct (Z.eq_dec c 39) as [->|N1]; [exists 39; eexists; repeat split; lia|]. destruct (Z.eq_dec c 34) as [->|N2]; [exists 34; eexists; repeat split; lia|].
        destruct HU as (_ & (X & Y & _)); [|apply ident_head; assumption].
        clear - N1 N2. repeat match goal with |- match ?x with _ => _ end = _ => is_var x; destruct x end; try reflexivity; contradiction. }
    destruct X as (c & r & -> & X1 & X2). exists c. eexists. split; [reflexivity|]. split; [exact X1|]. contradiction.
  - rewrite wt_cons. exists 49. eexists. split; [reflexivity|]. split; [lia|discriminate].
  - apply P. unfold lvlAnd. lia.
  - apply P. unfold lvlOr. lia.
  - apply P. unfold lvlList. lia.
  - destruct HP as (_ & _ & (X & Y & _)). destruct (ident_head _ X Y) as (c & r & -> & X1 & X2). rewrite wt_cons. exists c. eexists. split; [reflexivity|]. split; [exact X1|contradiction].
  - destruct HP as (_ & _ & (X & Y & _)). destruct (ident_head _ X Y) as (c & r & -> & X1 & X2). rewrite wt_cons. exists c. eexists. split; [reflexivity|]. split; [exact X1|contradiction].
  - exact (IHg HP lvl tail HL).
  - exact (IHg HP lvl tail HL).
Qed.
Lemma pre_apart : forall k c b after, In (k, [c]) optab -> c <> 46 -> c <> 47 -> head_ok b after ->
  (forall x, In x (op_next [c]) -> x = 61 \/ (x = 43 /\ b = false)) -> apart k [c] after.
Proof.
  intros k c b after H H1 H2 (x & r & -> & N1 & N2) HX. apply op_apart; auto; try congruence. intros c' r' E Hin. injection E as <- _. destruct (HX _ Hin) as [->|(-> & ->)]; [contradiction|]. specialize (N2 eq_refl). discriminate.
Qed.
Lemma toks_apart : forall g, prints g -> forall lvl tail, stop tail -> all_apart (toks lvl g) tail.
Proof.
  induction g using gr_ind'; intros HP lvl tail S; try (destruct HP; fail); cbn [toks];
    try (split; [apply stop_apart; exact S|exact Logic.I]);
    try (split; [eapply pre_apart; [vm_compute; tauto|lia|lia|apply toks_head; [exact HP|reflexivity]|intros x Hx; vm_compute in Hx; intuition]|apply IHg; assumption]).
  - apply prints_and in HP. destruct HP as (H1 & H2). 
    assert (N : toks 0 (GAnd gs) <> []) by (apply toks_ne; apply prints_and; split; assumption). apply parens_apart; [exact N| |exact S]. clear S tail. fold and_toks.
    rewrite Forall_forall in *. clear N H1. generalize true. induction gs as [|g gs IH]; intros first tail S; [exact Logic.I|]. cbn [and_toks]. fold and_toks.
    assert (E : forall f tail, stop tail -> all_apart (and_toks f gs) tail) by (apply IH; intros x Hx; [apply H|apply H2]; right; assumption). clear IH.
    destruct (is_nil g) eqn:N; [apply E; exact S|]. apply apart_app. split; [|apply E; exact S].
    assert (S2 : stop (written_text (and_toks false gs) tail)).
    { clear - H2 S. induction gs as [|x gs IH]; [exact S|]. cbn [and_toks]. fold and_toks. destruct (is_nil x) eqn:N; [apply IH; intros y [->|Hy]; apply H2; [left|right; right]; auto|].
      rewrite wt_app. apply stop_pad. apply toks_ne. apply H2; [right; left; reflexivity|exact N]. }
    destruct first; [|apply apart_pad]; exact (H g (or_introl eq_refl) (H2 g (or_introl eq_refl) N) lvlAnd _ S2).
  - apply prints_or in HP. destruct HP as (H1 & H2).
    assert (N : toks 0 (GOr gs) <> []) by (apply toks_ne; apply prints_or; split; assumption). apply parens_apart; [exact N| |exact S]. clear S tail. fold or_toks.
    rewrite Forall_forall in *. clear N H1. generalize true. induction gs as [|g gs IH]; intros first tail S; [exact Logic.I|]. cbn [or_toks]. fold or_toks.
    assert (E : forall f tail, stop tail -> all_apart (or_toks f gs) tail) by (apply IH; intros x Hx; [apply H|apply H2]; right; assumption). clear IH.
    apply apart_app. split; [|apply E; exact S].
    assert (S2 : stop (written_text (or_toks false gs) tail)).
    { clear - S. destruct gs as [|x gs]; [exact S|]. left. cbn. unfold ws. auto. }
    assert (Q : all_apart (toks lvlOr g) (written_text (or_toks false gs) tail)) by (exact (H g (or_introl eq_refl) (H2 g (or_introl eq_refl)) lvlOr _ S2)).
    destruct first; [exact Q|]. split; [|apply apart_pad; exact Q]. apply stop_apart. apply stop_pad. apply toks_ne. apply H2. left. reflexivity.
  - destruct HP as (HP & R1). split; [|apply IHg; assumption]. eapply pre_apart; [vm_compute; tauto|lia|lia|apply toks_head; [exact HP|reflexivity]|]. rewrite R1. intros x Hx. vm_compute in Hx. intuition.
  - destruct HP as (Ha & Hb & _). apply parens_apart; [|clear S tail; intros tail S|exact S].
    + intro X. apply app_eq_nil in X. destruct X as (_ & X). discriminate.
    + apply apart_app. split; [apply IHg1; [exact Ha|]|split].
      * left. match goal with |- context [if ?z then _ else _] => destruct z end; rewrite wt_cons; cbn; unfold ws; auto.
      * apply stop_apart. apply stop_pad. apply toks_ne. exact Hb.
      * apply apart_pad. apply IHg2; assumption.
  - exact (IHg HP lvl tail S).
  - exact (IHg HP lvl tail S).
Qed.

Lemma num1 : writable isL isD INT [49] [49].
Proof.
  apply Wr_number.
  - change INT with (number_kind [] [] []). change [49] with ([49] ++ [] ++ [] ++ []). apply Num_dec; try (left; reflexivity); [discriminate|]. repeat constructor; unfold digit; lia.
  - intros _. split; [discriminate|]. split; [discriminate|]. intros (ds & X & _ & Y). discriminate.
Qed.
Definition fine (mS : bool) (w : written) : Prop := writable isL isD (w_kind w) (w_lit w) (w_text w) /\ spacing mS (w_gap w) /\
  (w_kind w = IDENT -> forall p, tk_scan tk (mkTok IDENT p (w_lit w)) = mkTok IDENT p (w_lit w)).
Lemma fine_pad : forall mS l, Forall (fine mS) l -> Forall (fine mS) (pad [32] l).
Proof. intros mS l H. destruct H as [|w l (W & S & K) H]; [constructor|]. constructor; [split; [exact W|split; [|exact K]]|exact H]. constructor; [|exact S]. left. unfold blank. auto. Qed.
Lemma fine_op : forall mS g k t, spacing mS g -> In (k, t) optab -> k <> SEMICOLON -> k <> IDENT -> fine mS (mkWr g k [] t).
Proof. intros mS g k t S H N N2. split; [|split; [exact S|contradiction]]. apply Wr_op; [apply op_in; exact H|exact N]. Qed.
Lemma fine_paren : forall mS b l, Forall (fine mS) l -> Forall (fine mS) (in_parens b l).
Proof.
  intros mS [] l H; [|exact H]. constructor; [apply fine_op; [constructor|vm_compute; tauto|discriminate|discriminate]|]. apply Forall_app. split; [exact H|]. constructor; [|constructor].
  apply fine_op; [constructor|vm_compute; tauto|discriminate|discriminate].
Qed.
Lemma toks_fine : forall mS g, prints g -> forall lvl, Forall (fine mS) (toks lvl g).
Proof.
  assert (B : forall mS, spacing mS [32]) by (intro; constructor; [left; unfold blank; auto|constructor]).
  induction g using gr_ind'; intros HP lvl; try (destruct HP; fail); cbn [toks];
    try (constructor; [apply fine_op; [constructor|vm_compute; tauto|discriminate|discriminate]|apply IHg; exact HP]).
  - destruct HP as (l & Hl). assert (W : word k = l) by (unfold PrintBack.word; destruct Hl as (-> & _); reflexivity). rewrite W. constructor; [|constructor]. split; [apply Hl|split; [constructor|]]. cbn [w_kind w_lit]. intro K. destruct Hl as (_ & (_ & HU) & _). apply HU. exact K.
  - constructor; [|constructor]. split; [exact num1|split; [constructor|discriminate]].
  - apply prints_and in HP. destruct HP as (_ & H2). apply fine_paren. fold and_toks. rewrite Forall_forall in H, H2. generalize true. induction gs as [|g gs IH]; intro first; [constructor|]. cbn [and_toks]. fold and_toks.
    assert (E : forall f, Forall (fine mS) (and_toks f gs)) by (apply IH; intros x Hx; [apply H|apply H2]; right; assumption).
    destruct (is_nil g) eqn:N; [apply E|]. apply Forall_app. split; [|apply E]. destruct first; [|apply fine_pad]; exact (H g (or_introl eq_refl) (H2 g (or_introl eq_refl) N) lvlAnd).
  - apply prints_or in HP. destruct HP as (_ & H2). apply fine_paren. fold or_toks. rewrite Forall_forall in H, H2. generalize true. induction gs as [|g gs IH]; intro first; [constructor|]. cbn [or_toks]. fold or_toks.
    assert (E : forall f, Forall (fine mS) (or_toks f gs)) by (apply IH; intros x Hx; [apply H|apply H2]; right; assumption).
    apply Forall_app. split; [|apply E]. destruct first; [|constructor; [apply fine_op; [apply B|vm_compute; tauto|discriminate|discriminate]|apply fine_pad]]; exact (H g (or_introl eq_refl) (H2 g (or_introl eq_refl)) lvlOr).
  - constructor; [apply fine_op; [constructor|vm_compute; tauto|discriminate|discriminate]|apply IHg; apply HP].
  - destruct HP as (Ha & Hb & _). apply fine_paren. apply Forall_app. split; [apply IHg1; exact Ha|].
    constructor; [|apply fine_pad; apply IHg2; exact Hb]. match goal with |- context [if ?z then _ else _] => destruct z end; (apply fine_op; [apply B|vm_compute; tauto|discriminate|discriminate]).
  - destruct HP as (_ & _ & X & Y & Z1). constructor; [|constructor]. split; [apply Wr_ident; assumption|split; [constructor|intros _; exact Z1]].
  - destruct HP as (_ & _ & X & Y & Z1). constructor; [|constructor]. split; [apply Wr_ident; assumption|split; [constructor|intros _; exact Z1]].
  - exact (IHg HP lvl).
  - exact (IHg HP lvl).
Qed.
End Toks.
