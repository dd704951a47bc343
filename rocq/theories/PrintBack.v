(** What Code prints, as tokens and as a syntax tree (C37). *)
From Coq Require Import String.
From Verif Require Import Base Token Utf8 Utf8Proofs Scanner ScannerSpec ScannerProofs ScannerProofs2 ScannerProofs3 ScannerProofs4
  ScannerProofs5 ScanDet ScanRun ScanInit ScanObs ScanClean Tokenize TokenizeProofs PropScan PropScan2
  Grammar MatchProofs Matcher Compiler GramSyntax CompilerProofs CompilerTop CompilerMore CompilerDen.

(** ** Grammars up to nesting of sequences and choices, [!], marks, object identities and the bodies of named rules *)
Section Norm.
Context {A T : Type}.
Notation G := (gr A T).
Definition alts (g : G) : list G := match g with GOr l => l | _ => [g] end.
Definition seqs (g : G) : list G := match g with GAnd l => l | GNil => [] | _ => [g] end.
Fixpoint norm (g : G) : G :=
  match g with
  | GNil => GNil | GTok k => GTok k | GTrue => GTrue | GEOF => GEOF | GVar v => GVar v
  | GPeek g1 => GPeek (norm g1) | GNot g1 => GNot (norm g1)
  | GRep0 _ g1 => GRep0 0 (norm g1) | GRep1 _ g1 => GRep1 0 (norm g1) | GRep01 _ g1 => GRep01 0 (norm g1)
  | GList _ a b z => GList 0 (norm a) (norm b) z
  | GNamed v _ => GVar v
  | GAct g1 _ | GTrans g1 _ => norm g1
  | GAnd gs => group GAnd (flat_map (fun g => seqs (norm g)) gs)
  | GOr gs => group GOr (flat_map (fun g => alts (norm g)) gs)
  end.

(** ** Normal forms *)
Definition is_or (g : G) : bool := match g with GOr _ => true | _ => false end.
Definition is_and (g : G) : bool := match g with GAnd _ => true | _ => false end.
Inductive nf : G -> Prop :=
| nf_or : forall l, length l <> 1%nat -> Forall (fun g => nf g /\ is_or g = false) l -> nf (GOr l)
| nf_and : forall l, length l <> 1%nat -> Forall (fun g => nf g /\ is_and g = false /\ is_nil g = false) l -> nf (GAnd l)
| nf_other : forall g, is_or g = false -> is_and g = false -> nf g.
Lemma nf_alts : forall g, nf g -> Forall (fun g => nf g /\ is_or g = false) (alts g).
Proof.
  intros g H. destruct (is_or g) eqn:E.
  - destruct g; try discriminate. inversion H; subst; [assumption|discriminate].
  - assert (X : alts g = [g]) by (destruct g; try reflexivity; discriminate). rewrite X. auto.
Qed.
Lemma nf_seqs : forall g, nf g -> Forall (fun g => nf g /\ is_and g = false /\ is_nil g = false) (seqs g).
Proof.
  intros g H. destruct (is_and g) eqn:E.
  - destruct g; try discriminate. inversion H; subst; [assumption|discriminate].
  - destruct (is_nil g) eqn:N; [destruct g; try discriminate; constructor|].
    assert (X : seqs g = [g]) by (destruct g; try reflexivity; discriminate). rewrite X. auto.
Qed.
Lemma forall_flat : forall X Y (P : Y -> Prop) (f : X -> list Y) l, Forall (fun x => Forall P (f x)) l -> Forall P (flat_map f l).
Proof. intros X Y P f l H. induction H; cbn; [constructor|]. apply Forall_app. auto. Qed.
Lemma nf_norm : forall g, nf (norm g).
Proof.
  induction g using gr_ind'; cbn [norm]; try (apply nf_other; reflexivity); auto.
  - assert (X : Forall (fun g => nf g /\ is_and g = false /\ is_nil g = false) (flat_map (fun g => seqs (norm g)) gs)).
    { apply forall_flat. eapply Forall_impl; [|exact H]. intros g Hg. apply nf_seqs. exact Hg. }
    destruct (flat_map _ gs) as [|x [|y l]]; cbn [group].
    + apply nf_and; [discriminate|constructor].
    + inversion X; subst. tauto.
    + apply nf_and; [discriminate|exact X].
  - assert (X : Forall (fun g => nf g /\ is_or g = false) (flat_map (fun g => alts (norm g)) gs)).
    { apply forall_flat. eapply Forall_impl; [|exact H]. intros g Hg. apply nf_alts. exact Hg. }
    destruct (flat_map _ gs) as [|x [|y l]]; cbn [group].
    + apply nf_or; [discriminate|constructor].
    + inversion X; subst. tauto.
    + apply nf_or; [discriminate|exact X].
Qed.
Lemma group_alts : forall g, nf g -> group GOr (alts g) = g.
Proof.
  intros g H. destruct (is_or g) eqn:E; [|destruct g; try reflexivity; discriminate].
  destruct g; try discriminate. inversion H; subst; [|discriminate]. cbn [alts]. destruct gs as [|x [|y l]]; try reflexivity. cbn in H1. congruence.
Qed.
Lemma group_seqs : forall g, nf g -> is_nil g = false -> group GAnd (seqs g) = g.
Proof.
  intros g H N. destruct (is_and g) eqn:E; [|destruct g; try reflexivity; discriminate].
  destruct g; try discriminate. inversion H; subst; [|discriminate]. cbn [seqs]. destruct gs as [|x [|y l]]; try reflexivity. cbn in H1. congruence.
Qed.
Lemma norm_or : forall l, l <> [] -> norm (group GOr l) = group GOr (flat_map (fun g => alts (norm g)) l).
Proof. intros [|x [|y l]] H; [contradiction| |reflexivity]. cbn [group flat_map]. rewrite app_nil_r, group_alts; [reflexivity|apply nf_norm]. Qed.
Lemma norm_and : forall l, (forall x, l = [x] -> is_nil (norm x) = false) -> norm (group GAnd l) = group GAnd (flat_map (fun g => seqs (norm g)) l).
Proof. intros [|x [|y l]] H; try reflexivity. cbn [group flat_map]. rewrite app_nil_r, group_seqs; [reflexivity|apply nf_norm|apply H; reflexivity]. Qed.
Lemma alts_or : forall L : list G, Forall (fun g => nf g /\ is_or g = false) L -> alts (group GOr L) = L.
Proof. intros [|x [|y l]] H; try reflexivity. cbn [group]. inversion H; subst. destruct x; try reflexivity. destruct H2 as (_ & H2). discriminate. Qed.
Lemma seqs_and : forall L : list G, Forall (fun g => nf g /\ is_and g = false /\ is_nil g = false) L -> seqs (group GAnd L) = L.
Proof. intros [|x [|y l]] H; try reflexivity. cbn [group]. inversion H as [|? ? (_ & H2 & H3)]; subst. destruct x; try reflexivity; discriminate. Qed.
End Norm.

(** ** Printable grammars *)
Section Print.
Context {A T : Type}.
Notation G := (gr A T).
Variables isL isD : Z -> bool.
Variable tk : tokener.

(** An identifier the tokener does not take for a keyword. *)
Definition plain_word (n : bytes) : Prop := ident isL isD n /\ clean n /\ forall p, tk_scan tk (mkTok IDENT p n) = mkTok IDENT p n.
(** [l] is the spelling of a token in grammar text: a capitalized name, a character or a string, ... *)
Definition word_kind (l : bytes) : Z := match l with 39 :: _ => CHAR | 34 :: _ => STRING | _ => IDENT end.
Definition token_word (l : bytes) : Prop :=
  writable isL isD (word_kind l) l l /\ (word_kind l = IDENT -> upper l = true /\ plain_word l).
(** ... and the tokener knows it as the token [k]. *)
Definition names_token (k : Z) (l : bytes) : Prop := tk_ttol tk k = Val l /\ token_word l /\ tk_ltot tk l = Val (k, tk) /\ k <> ILLEGAL.
Fixpoint is_rep1 (g : G) : bool := match g with GRep1 _ _ => true | GAct g1 _ | GTrans g1 _ => is_rep1 g1 | _ => false end.
Fixpoint is_list (g : G) : bool := match g with GList _ _ _ _ => true | GAct g1 _ | GTrans g1 _ => is_list g1 | _ => false end.
(** Everything except: a list as the separator of a list, + directly under +, a sequence of nothing but [!], a [!]
    outside a sequence, the rule name [true], words and tokens the tokener does not read back. *)
Fixpoint prints (g : G) : Prop :=
  match g with
  | GNil | GEOF => False
  | GTok k => exists l, names_token k l
  | GTrue => True
  | GPeek g1 | GNot g1 | GRep0 _ g1 | GRep01 _ g1 | GAct g1 _ | GTrans g1 _ => prints g1
  | GRep1 _ g1 => prints g1 /\ is_rep1 g1 = false
  | GAnd gs => existsb (fun g => negb (is_nil g)) gs = true /\
      (fix all (gs : list G) : Prop := match gs with [] => True | g :: r => (is_nil g = false -> prints g) /\ all r end) gs
  | GOr gs => gs <> [] /\ (fix all (gs : list G) : Prop := match gs with [] => True | g :: r => prints g /\ all r end) gs
  | GList _ a b _ => prints a /\ prints b /\ is_list b = false
  | GVar v | GNamed v _ => upper v = false /\ v <> n_true /\ plain_word v
  end.
Lemma prints_and : forall gs, prints (GAnd gs) <-> existsb (fun g => negb (is_nil g)) gs = true /\ Forall (fun g => is_nil g = false -> prints g) gs.
Proof.
  intro gs. cbn [prints]. assert (X : forall l, (fix all (gs : list G) : Prop := match gs with [] => True | g :: r => (is_nil g = false -> prints g) /\ all r end) l <->
    Forall (fun g => is_nil g = false -> prints g) l); [|rewrite X; tauto].
  induction l as [|g l IH]; [split; auto|]. rewrite IH. split; [intros (H1 & H2); constructor; auto|]. intro H. inversion H; auto.
Qed.
Lemma prints_or : forall gs, prints (GOr gs) <-> gs <> [] /\ Forall prints gs.
Proof.
  intro gs. cbn [prints]. assert (X : forall l, (fix all (gs : list G) : Prop := match gs with [] => True | g :: r => prints g /\ all r end) l <->
    Forall prints l); [|rewrite X; tauto].
  induction l as [|g l IH]; [split; auto|]. rewrite IH. split; [intros (H1 & H2); constructor; auto|]. intro H. inversion H; auto.
Qed.

(** ** The tree printed *)
Inductive shape : Type := ShOr | ShAnd | ShList | ShOne.
Fixpoint shape_of (g : G) : shape :=
  match g with GOr _ => ShOr | GAnd _ => ShAnd | GList _ _ _ _ => ShList | GAct g1 _ | GTrans g1 _ => shape_of g1 | _ => ShOne end.
Definition as_expr (s : shape) (t : gram) : expr := match s with ShOr => [ITerm (FParen t) []] | _ => hd [] t end.
Definition as_item (s : shape) (t : gram) : item := match s with ShOr | ShAnd => ITerm (FParen t) [] | _ => hd IBang (hd [] t) end.
Definition as_factor (s : shape) (t : gram) : factor :=
  match s with ShOne => match t with [[ITerm f []]] => f | _ => FInt [] end | _ => FParen t end.
Definition one (f : factor) : gram := [[ITerm f []]].
Definition word (k : Z) : bytes := match tk_ttol tk k with Val l => l | Crash => [] end.
Definition word_factor (l : bytes) : factor := match l with 39 :: _ => FChar l | 34 :: _ => FString l | _ => FIdent l end.
Definition add_suffix (i : item) (s : suffix) : item := match i with ITerm f ss => ITerm f (ss ++ [s]) | IBang => IBang end.
Fixpoint tg (g : G) : gram :=
  match g with
  | GNil | GEOF => []
  | GTok k => one (word_factor (word k))
  | GTrue => one (FInt [49])
  | GPeek g1 => one (FPre PPeek (as_factor (shape_of g1) (tg g1)))
  | GNot g1 => one (FPre PNot (as_factor (shape_of g1) (tg g1)))
  | GRep0 _ g1 => one (FPre PStar (as_factor (shape_of g1) (tg g1)))
  | GRep1 _ g1 => one (FPre PPlus (as_factor (shape_of g1) (tg g1)))
  | GRep01 _ g1 => one (FPre POpt (as_factor (shape_of g1) (tg g1)))
  | GList _ a b z => [[add_suffix (as_item (shape_of a) (tg a)) ((if z then SList0 else SList) (as_factor (shape_of b) (tg b)))]]
  | GAnd gs => [flat_map (fun g => if is_nil g then [] else as_expr (shape_of g) (tg g)) gs]
  | GOr gs => flat_map tg gs
  | GVar v | GNamed v _ => one (FIdent v)
  | GAct g1 _ | GTrans g1 _ => tg g1
  end.

(** shape of the tree *)
Definition tree_ok (g : G) : Prop :=
  ok_gram (tg g) = true /\
  (shape_of g <> ShOr -> exists e, tg g = [e]) /\
  (shape_of g = ShList \/ shape_of g = ShOne -> exists f ss, tg g = [[ITerm f ss]]) /\
  (shape_of g = ShOne -> exists f, tg g = [[ITerm f []]]).
Lemma ok_factor_paren : forall t, ok_factor (FParen t) = ok_gram t.
Proof. reflexivity. Qed.
Lemma tree_factor : forall g, tree_ok g -> ok_factor (as_factor (shape_of g) (tg g)) = true.
Proof.
  intros g (H1 & H2 & H3 & H4). destruct (shape_of g) eqn:E; cbn [as_factor]; rewrite ?ok_factor_paren; auto.
  destruct (H4 eq_refl) as (f & Hf). rewrite Hf in H1 |- *. cbn in H1. rewrite !andb_true_r in H1. exact H1.
Qed.
Lemma tree_item : forall g, tree_ok g -> exists f ss, as_item (shape_of g) (tg g) = ITerm f ss /\ ok_item (ITerm f ss) = true.
Proof.
  intros g (H1 & H2 & H3 & H4). destruct (shape_of g) eqn:E; cbn [as_item].
  - exists (FParen (tg g)), []. split; [reflexivity|]. cbn [ok_item]. rewrite ok_factor_paren, H1. reflexivity.
  - exists (FParen (tg g)), []. split; [reflexivity|]. cbn [ok_item]. rewrite ok_factor_paren, H1. reflexivity.
  - destruct (H3 (or_introl eq_refl)) as (f & ss & Hf). rewrite Hf in H1 |- *. exists f, ss. split; [reflexivity|]. unfold ok_gram, ok_expr in H1. cbn [forallb nonempty andb] in H1. rewrite !andb_true_r in H1. exact H1.
  - destruct (H3 (or_intror eq_refl)) as (f & ss & Hf). rewrite Hf in H1 |- *. exists f, ss. split; [reflexivity|]. unfold ok_gram, ok_expr in H1. cbn [forallb nonempty andb] in H1. rewrite !andb_true_r in H1. exact H1.
Qed.
Lemma tree_expr : forall g, tree_ok g -> ok_expr (as_expr (shape_of g) (tg g)) = true.
Proof.
  intros g (H1 & H2 & H3 & H4). destruct (shape_of g) eqn:E; cbn [as_expr].
  - unfold ok_expr. cbn [nonempty forallb andb ok_item]. rewrite ok_factor_paren, H1. reflexivity.
  - destruct (H2 ltac:(discriminate)) as (e & He). rewrite He in *. unfold ok_gram in H1. cbn [forallb nonempty andb] in H1. rewrite andb_true_r in H1. exact H1.
  - destruct (H2 ltac:(discriminate)) as (e & He). rewrite He in *. unfold ok_gram in H1. cbn [forallb nonempty andb] in H1. rewrite andb_true_r in H1. exact H1.
  - destruct (H2 ltac:(discriminate)) as (e & He). rewrite He in *. unfold ok_gram in H1. cbn [forallb nonempty andb] in H1. rewrite andb_true_r in H1. exact H1.
Qed.
Lemma one_ok : forall g f, tg g = one f -> ok_factor f = true -> shape_of g = ShOne -> tree_ok g.
Proof.
  intros g f H1 H2 H3. split; [|split; [|split]]; rewrite H1.
  - unfold one, ok_gram, ok_expr. cbn [forallb nonempty andb ok_item]. rewrite H2. reflexivity.
  - intros _. unfold one. eauto.
  - intros _. unfold one. eauto.
  - intros _. unfold one. eauto.
Qed.
Lemma prints_tree : forall g, prints g -> tree_ok g.
Proof.
  induction g using gr_ind'; intro HP.
  - destruct HP.
  - eapply one_ok; [reflexivity| |reflexivity]. unfold word_factor. match goal with |- context [word ?k] => destruct (word k) as [|c l] end; [reflexivity|].
    repeat match goal with |- context [match ?x with _ => _ end] => destruct x end; reflexivity.
  - eapply one_ok; reflexivity.
  - eapply one_ok; [reflexivity| |reflexivity]. cbn [ok_factor]. apply tree_factor. apply IHg. exact HP.
  - eapply one_ok; [reflexivity| |reflexivity]. cbn [ok_factor]. apply tree_factor. apply IHg. exact HP.
  - destruct HP.
  - apply prints_and in HP. destruct HP as (HP1 & HP2). split; [|split; [|split]]; cbn [shape_of tg].
    + unfold ok_gram. cbn [nonempty forallb andb]. rewrite andb_true_r. revert HP1. rewrite Forall_forall in *. unfold ok_expr. intro HP1. apply andb_true_iff. split.
      * apply existsb_exists in HP1. destruct HP1 as (g & Hg & Hn). apply negb_true_iff in Hn. pose proof (tree_expr g (H g Hg (HP2 g Hg Hn))) as X.
        apply in_split in Hg. destruct Hg as (l1 & l2 & ->). rewrite flat_map_app. cbn [flat_map]. rewrite Hn. unfold ok_expr in X. apply andb_true_iff in X.
        destruct (as_expr (shape_of g) (tg g)); [destruct X; discriminate|]. destruct (flat_map _ l1); reflexivity.
      * apply forallb_forall. intros i Hi. apply in_flat_map in Hi. destruct Hi as (g & Hg & Hi). destruct (is_nil g) eqn:Hn; [destruct Hi|].
        pose proof (tree_expr g (H g Hg (HP2 g Hg Hn))) as X. unfold ok_expr in X. apply andb_true_iff in X. destruct X as (_ & X). rewrite forallb_forall in X. auto.
    + intros _. eauto.
    + intros [X|X]; discriminate.
    + intro X; discriminate.
  - apply prints_or in HP. destruct HP as (HP1 & HP2). split; [|split; [|split]]; cbn [shape_of tg]; try (intros; exfalso; intuition discriminate).
    unfold ok_gram. rewrite Forall_forall in *. apply andb_true_iff. split.
    + destruct gs as [|g gs]; [contradiction|]. cbn [flat_map]. destruct (H g (or_introl eq_refl) (HP2 g (or_introl eq_refl))) as (X & _). unfold ok_gram in X. apply andb_true_iff in X.
      destruct (tg g); [destruct X; discriminate|]. reflexivity.
    + apply forallb_forall. intros e He. apply in_flat_map in He. destruct He as (g & Hg & He). destruct (H g Hg (HP2 g Hg)) as (X & _). unfold ok_gram in X. apply andb_true_iff in X. destruct X as (_ & X). rewrite forallb_forall in X. auto.
  - eapply one_ok; [reflexivity| |reflexivity]. cbn [ok_factor]. apply tree_factor. apply IHg. exact HP.
  - eapply one_ok; [reflexivity| |reflexivity]. cbn [ok_factor]. apply tree_factor. apply IHg. apply HP.
  - eapply one_ok; [reflexivity| |reflexivity]. cbn [ok_factor]. apply tree_factor. apply IHg. exact HP.
  - destruct HP as (HP1 & HP2 & HP3). destruct (tree_item g1 (IHg1 HP1)) as (f & ss & E & O). pose proof (tree_factor g2 (IHg2 HP2)) as F.
    assert (O' : ok_item (add_suffix (ITerm f ss) ((if l0 then SList0 else SList) (as_factor (shape_of g2) (tg g2)))) = true).
    { cbn [add_suffix ok_item] in *. apply andb_true_iff in O. destruct O as (O1 & O2). rewrite O1, forallb_app, O2. destruct l0; cbn [forallb ok_suffix]; rewrite F; reflexivity. }
    split; [|split; [|split]]; cbn [shape_of tg]; rewrite E.
    + unfold ok_gram, ok_expr. cbn [nonempty forallb andb]. rewrite O'. reflexivity.
    + intros _. eauto.
    + intros _. cbn [add_suffix]. eauto.
    + intro X; discriminate.
  - eapply one_ok; reflexivity.
  - eapply one_ok; reflexivity.
  - exact (IHg HP).
  - exact (IHg HP).
Qed.

(** ** The meaning of the tree *)
Section Meaning.
Variable code : bytes -> Z.
Hypothesis Hcode : forall k l, names_token k l -> code l = k.
Variable tr : bool.
Variable mark : bytes -> G -> G.
Notation S_factor := (sem_factor code tr mark).
Notation S_item := (sem_item code tr mark).
Notation S_expr := (sem_expr code tr mark).
Notation S_gram := (sem_gram code tr mark).
Definition full (g : G) : Prop := seqs (norm g) <> [] /\ alts (norm g) <> [].
Definition back (g : G) : Prop := flat_map (fun h => alts (norm h)) (map S_expr (tg g)) = alts (norm g).
Lemma full_nil : forall g, full g -> is_nil (norm g) = false.
Proof. intros g (H & _). destruct (norm g); try reflexivity. contradiction H. reflexivity. Qed.
Lemma alts_inj : forall g h : G, nf g -> nf h -> alts g = alts h -> g = h.
Proof. intros g h Hg Hh E. rewrite <- (group_alts g Hg), <- (group_alts h Hh), E. reflexivity. Qed.
Lemma back_gram : forall g, tree_ok g -> back g -> norm (S_gram (tg g)) = norm g.
Proof.
  intros g (O & _) B. unfold sem_gram. rewrite norm_or.
  - unfold back in B. rewrite B. apply group_alts. apply nf_norm.
  - intro X. unfold ok_gram in O. destruct (tg g); [discriminate O|discriminate X].
Qed.
Lemma paren_sem : forall t, S_factor (FParen t) = S_gram t.
Proof. reflexivity. Qed.
Lemma back_factor : forall g, tree_ok g -> back g -> norm (S_factor (as_factor (shape_of g) (tg g))) = norm g.
Proof.
  intros g O B. pose proof (back_gram g O B) as BG. destruct O as (O1 & O2 & O3 & O4).
  destruct (shape_of g) eqn:E; cbn [as_factor]; try (rewrite paren_sem; exact BG).
  destruct (O4 eq_refl) as (f & Hf). rewrite Hf in *. exact BG.
Qed.
Lemma back_item : forall g, tree_ok g -> back g -> norm (S_item (as_item (shape_of g) (tg g))) = norm g.
Proof.
  intros g O B. pose proof (back_gram g O B) as BG. destruct O as (O1 & O2 & O3 & O4).
  destruct (shape_of g) eqn:E; cbn [as_item]; try (rewrite sem_item_term; cbn [sem_suffixes]; rewrite paren_sem; exact BG).
  - destruct (O3 (or_introl eq_refl)) as (f & ss & Hf). rewrite Hf in *. exact BG.
  - destruct (O3 (or_intror eq_refl)) as (f & ss & Hf). rewrite Hf in *. exact BG.
Qed.
Lemma nf_flat_seqs : forall l : list G, Forall (fun g => nf g /\ is_and g = false /\ is_nil g = false) (flat_map (fun g => seqs (norm g)) l).
Proof. intro l. apply forall_flat. apply Forall_forall. intros x _. apply nf_seqs. apply nf_norm. Qed.
Lemma nf_flat_alts : forall l : list G, Forall (fun g => nf g /\ is_or g = false) (flat_map (fun g => alts (norm g)) l).
Proof. intro l. apply forall_flat. apply Forall_forall. intros x _. apply nf_alts. apply nf_norm. Qed.
Lemma back_expr : forall g, tree_ok g -> back g -> full g ->
  flat_map (fun h => seqs (norm h)) (map S_item (as_expr (shape_of g) (tg g))) = seqs (norm g).
Proof.
  intros g O B F. pose proof (back_gram g O B) as BG. destruct O as (O1 & O2 & O3 & O4).
  destruct (shape_of g) eqn:E; cbn [as_expr].
  { cbn [map flat_map]. rewrite app_nil_r, sem_item_term. cbn [sem_suffixes]. rewrite paren_sem, BG. reflexivity. }
  all: destruct (O2 ltac:(discriminate)) as (e & He); rewrite He in *; cbn [hd]; change (S_gram [e]) with (S_expr e) in BG; unfold sem_expr in BG;
    rewrite norm_and in BG; [rewrite <- BG; symmetry; apply seqs_and; apply nf_flat_seqs|];
    intros x Hx; rewrite Hx in BG; cbn [group] in BG; rewrite BG; apply full_nil; exact F.
Qed.
Lemma one_back : forall g f, tg g = one f -> norm (S_factor f) = norm g -> back g.
Proof. intros g f H1 H2. unfold back. rewrite H1. change (alts (norm (S_factor f)) ++ [] = alts (norm g)). rewrite app_nil_r, H2. reflexivity. Qed.
Lemma suffix_sem : forall f ss s, S_item (ITerm f (ss ++ [s])) = sem_suffix code tr mark s (S_item (ITerm f ss)).
Proof.
  intros f ss s. rewrite !sem_item_term. generalize (S_factor f). induction ss as [|x ss IH]; intro h; [reflexivity|]. cbn [app sem_suffixes]. apply IH.
Qed.
Lemma only_one : forall X Y (f : X -> list Y) l y, flat_map f l = [y] -> forall x, In x l -> f x <> [] -> f x = [y].
Proof.
  intros X Y f l y. induction l as [|a l IH]; [discriminate|]. cbn [flat_map]. intros E x [-> |H] N.
  - destruct (f x) as [|b [|c r]]; [contradiction| |discriminate]. injection E as -> _. reflexivity.
  - destruct (f a) as [|b r]; [apply IH; auto|]. injection E as _ E. apply app_eq_nil in E. destruct E as (_ & E). exfalso. apply N. apply in_split in H. destruct H as (l1 & l2 & ->).
    rewrite flat_map_app in E. apply app_eq_nil in E. destruct E as (_ & E). cbn [flat_map] in E. apply app_eq_nil in E. apply E.
Qed.
Lemma prints_back : forall g, prints g -> back g /\ full g.
Proof.
  induction g using gr_ind'; intro HP.
  - destruct HP.
  - split; [|split; discriminate]. eapply one_back; [reflexivity|]. destruct HP as (l & Hl).
    assert (W : word k = l) by (unfold word; destruct Hl as (-> & _); reflexivity). rewrite W.
    pose proof (Hcode _ _ Hl) as C. destruct Hl as (_ & (HW & HU) & _). unfold word_factor, word_kind in *.
    assert (X : forall f, f = FChar l \/ f = FString l \/ (f = FIdent l /\ upper l = true) -> norm (S_factor f) = norm (GTok k)).
    { intros f [-> | [-> | (-> & U)]]; cbn [sem_factor norm]; [congruence|congruence|]. rewrite U. cbn [norm]. congruence. }
    apply X. destruct l as [|c l]; [right; right; split; [reflexivity|]; apply HU; reflexivity|].
    repeat match goal with |- context [match ?x with _ => _ end] => destruct x eqn:? end; auto; right; right; (split; [reflexivity|apply HU; reflexivity]).
  - split; [|split; discriminate]. eapply one_back; reflexivity.
  - destruct (IHg HP) as (B & F). split; [|split; discriminate]. eapply one_back; [reflexivity|]. cbn [sem_factor sem_pre norm]. rewrite back_factor; auto. apply prints_tree; exact HP.
  - destruct (IHg HP) as (B & F). split; [|split; discriminate]. eapply one_back; [reflexivity|]. cbn [sem_factor sem_pre norm]. rewrite back_factor; auto. apply prints_tree; exact HP.
  - destruct HP.
  - pose proof (prints_tree _ HP) as OK. apply prints_and in HP. destruct HP as (HP1 & HP2). rewrite Forall_forall in *.
    set (E := flat_map (fun g => if is_nil g then [] else as_expr (shape_of g) (tg g)) gs).
    assert (SE : flat_map (fun h => seqs (norm h)) (map S_item E) = flat_map (fun h => seqs (norm h)) gs).
    { unfold E. clear - H HP2. induction gs as [|g gs IH]; [reflexivity|]. cbn [flat_map]. rewrite map_app, flat_map_app. f_equal; [|apply IH; intros; [apply H|apply HP2]; auto; right; assumption].
      destruct (is_nil g) eqn:N; [destruct g; try discriminate; reflexivity|]. destruct (H g (or_introl eq_refl) (HP2 g (or_introl eq_refl) N)) as (B & F).
      apply back_expr; auto. apply prints_tree. apply HP2; [left; reflexivity|exact N]. }
    assert (NE : flat_map (fun h => seqs (norm h)) gs <> []).
    { apply existsb_exists in HP1. destruct HP1 as (g & Hg & N). apply negb_true_iff in N. destruct (H g Hg (HP2 g Hg N)) as (_ & (F & _)). intro X.
      apply F. apply in_split in Hg. destruct Hg as (l1 & l2 & ->). rewrite flat_map_app in X. apply app_eq_nil in X. destruct X as (_ & X). cbn [flat_map] in X. apply app_eq_nil in X. apply X. }
    assert (SN : seqs (norm (GAnd gs)) = flat_map (fun h => seqs (norm h)) gs) by (cbn [norm]; apply seqs_and, nf_flat_seqs).
    split.
    + unfold back. cbn [tg]. fold E. cbn [map flat_map]. rewrite app_nil_r. f_equal. unfold sem_expr. rewrite norm_and, SE; [reflexivity|].
      intros x Hx. destruct (is_nil (norm x)) eqn:N; [|reflexivity]. exfalso. apply NE. rewrite <- SE, Hx. cbn [flat_map]. destruct (norm x); try discriminate. reflexivity.
    + split; [rewrite SN; exact NE|]. cbn [norm]. destruct (flat_map (fun h => seqs (norm h)) gs) as [|x [|y l]] eqn:L; [contradiction| |discriminate].
      cbn [group]. apply existsb_exists in HP1. destruct HP1 as (g & Hg & N). apply negb_true_iff in N. destruct (H g Hg (HP2 g Hg N)) as (_ & F).
      pose proof (only_one _ _ _ _ _ L _ Hg (proj1 F)) as X; cbn beta in X. pose proof (group_seqs _ (nf_norm g) (full_nil _ F)) as Y. rewrite X in Y. cbn [group] in Y. rewrite Y. apply F.
  - pose proof (prints_tree _ HP) as OK. apply prints_or in HP. destruct HP as (HP1 & HP2). rewrite Forall_forall in *.
    assert (SE : flat_map (fun h => alts (norm h)) (map S_expr (tg (GOr gs))) = flat_map (fun h => alts (norm h)) gs).
    { cbn [tg]. clear - H HP2. induction gs as [|g gs IH]; [reflexivity|]. cbn [flat_map]. rewrite map_app, flat_map_app. f_equal; [|apply IH; intros; [apply H|apply HP2]; auto; right; assumption].
      apply (H g (or_introl eq_refl) (HP2 g (or_introl eq_refl))). }
    assert (NE : flat_map (fun h => alts (norm h)) gs <> []).
    { destruct gs as [|g gs]; [contradiction|]. destruct (H g (or_introl eq_refl) (HP2 g (or_introl eq_refl))) as (_ & (_ & F)). cbn [flat_map]. intro X. apply app_eq_nil in X. tauto. }
    split; [|split].
    + unfold back. rewrite SE. cbn [norm]. symmetry. apply alts_or. apply nf_flat_alts.
    + cbn [norm]. destruct (flat_map (fun h => alts (norm h)) gs) as [|x [|y l]] eqn:L; [contradiction| |discriminate].
      cbn [group]. destruct gs as [|g gs]; [contradiction|]. destruct (H g (or_introl eq_refl) (HP2 g (or_introl eq_refl))) as (_ & F).
      pose proof (only_one _ _ _ _ _ L _ (or_introl eq_refl) (proj2 F)) as X; cbn beta in X. pose proof (group_alts _ (nf_norm g)) as Y. rewrite X in Y. cbn [group] in Y. rewrite Y. apply F.
    + cbn [norm]. rewrite alts_or; [exact NE|apply nf_flat_alts].
  - destruct (IHg HP) as (B & F). split; [|split; discriminate]. eapply one_back; [reflexivity|]. cbn [sem_factor sem_pre norm]. rewrite back_factor; auto. apply prints_tree; exact HP.
  - destruct HP as (HP & _). destruct (IHg HP) as (B & F). split; [|split; discriminate]. eapply one_back; [reflexivity|]. cbn [sem_factor sem_pre norm]. rewrite back_factor; auto. apply prints_tree; exact HP.
  - destruct (IHg HP) as (B & F). split; [|split; discriminate]. eapply one_back; [reflexivity|]. cbn [sem_factor sem_pre norm]. rewrite back_factor; auto. apply prints_tree; exact HP.
  - destruct HP as (HPa & HPb & _). destruct (IHg1 HPa) as (Ba & Fa). destruct (IHg2 HPb) as (Bb & Fb). split; [|split; discriminate].
    unfold back. cbn [tg]. destruct (tree_item g1 (prints_tree _ HPa)) as (f & ss & Hf & _). pose proof (back_item _ (prints_tree _ HPa) Ba) as BI. rewrite Hf in *. cbn [add_suffix map flat_map].
    unfold sem_expr. cbn [map group]. rewrite suffix_sem, app_nil_r.
    match goal with |- context [if ?z then SList0 else SList] => destruct z end; cbn [sem_suffix norm]; rewrite BI, back_factor by (auto; apply prints_tree; assumption); reflexivity.
  - destruct HP as (U & NT & PW). split; [|split; discriminate]. eapply one_back; [reflexivity|]. cbn [sem_factor]. rewrite U.
    match goal with |- context [beq ?v n_true] => assert (X : beq v n_true = false) by (apply beq_neq; exact NT); rewrite X end. reflexivity.
  - destruct HP as (U & NT & PW). split; [|split; discriminate]. eapply one_back; [reflexivity|]. cbn [sem_factor]. rewrite U.
    match goal with |- context [beq ?v n_true] => assert (X : beq v n_true = false) by (apply beq_neq; exact NT); rewrite X end. reflexivity.
  - exact (IHg HP).
  - exact (IHg HP).
Qed.
End Meaning.
End Print.
