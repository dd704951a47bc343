(** Property C84 (tplgen). *)
From Coq Require Import String Permutation.
From Verif Require Import Base Token Utf8 Cmd.
Local Open Scope list_scope.
Local Open Scope Z_scope.

(** ** Specification *)
(** The places of a package where a value is given to names, in the order of the text: variable and constant specifications and
    assignments, at the top level and directly in the bodies of functions (not in nested blocks).  [NoBody]: a function without body. *)
Inductive place : Type := Var (names : list bytes) (values : list expr) | Set_ (lhs rhs : list expr) | NoBody.
Definition spec_places (l : list spec) : list place := flat_map (fun s => match s with ValueSpec n v => [Var n v] | OtherSpec => [] end) l.
Definition stmt_places (s : stmt) : list place := match s with DeclStmt l => spec_places l | AssignStmt l r => [Set_ l r] | OtherStmt => [] end.
Definition decl_places (d : decl) : list place :=
  match d with GenDecl l => spec_places l | FuncDecl (Some b) => flat_map stmt_places b | FuncDecl None => [NoBody] | BadDecl => [] end.
Definition file_places (ds : list decl) : list place := flat_map decl_places ds.
(** with the package of the file *)
Definition all_places (fs : list (bytes * list decl)) : list (bytes * place) := flat_map (fun f => map (pair (fst f)) (file_places (snd f))) fs.

(** [binds g p x]: the place [p] is one of [g], and [x] stands opposite it ([None]: nothing does).  Of repeated names the last counts
    in a specification, the first in an assignment. *)
Inductive binds (g : bytes) : place -> option expr -> Prop :=
| binds_var : forall pre post values, ~ In g post -> binds g (Var (pre ++ g :: post) values) (nth_error values (length pre))
| binds_set : forall pre post rhs, ~ In (EIdent g) pre -> binds g (Set_ (pre ++ EIdent g :: post) rhs) (nth_error rhs (length pre)).
Definition gives (g : bytes) (p : place) (t : bytes) : Prop := binds g p (Some (EBasicLit t)).
Definition breaks (g : bytes) (p : place) : Prop := p = NoBody \/ binds g p None.
Definition quiet (g : bytes) (p : place) : Prop := ~ breaks g p /\ forall t, ~ gives g p t.
(** Literals are not empty (a property of Go's syntax). *)
Definition literals (g : bytes) (fs : list (bytes * list decl)) : Prop := forall pkg p, In (pkg, p) (all_places fs) -> ~ gives g p [].

(** Go's string literals and their values: raw ones (go/scanner has taken the carriage returns out) and interpreted ones. *)
Definition hexdigit (c v : Z) : Prop := 48 <= c <= 57 /\ v = c - 48 \/ 97 <= c <= 102 /\ v = c - 87 \/ 65 <= c <= 70 /\ v = c - 55.
Definition octdigit (c v : Z) : Prop := 48 <= c <= 55 /\ v = c - 48.
Definition number (base : Z) (ds : list Z) : Z := fold_left (fun a d => a * base + d) ds 0.
Inductive escape : bytes -> bytes -> Prop :=
| esc_char : forall c v, In (c, v) [(97, 7); (98, 8); (102, 12); (110, 10); (114, 13); (116, 9); (118, 11); (92, 92); (34, 34)] -> escape [92; c] [v]
| esc_oct : forall ds vs, length ds = 3%nat -> Forall2 octdigit ds vs -> number 8 vs <= 255 -> escape (92 :: ds) [number 8 vs]
| esc_hex : forall ds vs, length ds = 2%nat -> Forall2 hexdigit ds vs -> escape (92 :: 120 :: ds) [number 16 vs]
| esc_u : forall ds vs, length ds = 4%nat -> Forall2 hexdigit ds vs -> escape (92 :: 117 :: ds) (EncodeRune (number 16 vs))
| esc_U : forall ds vs, length ds = 8%nat -> Forall2 hexdigit ds vs -> escape (92 :: 85 :: ds) (EncodeRune (number 16 vs)).
Inductive go_string : bytes -> bytes -> Prop :=
| gs_nil : go_string [] []
| gs_plain : forall c s v, c <> 92 -> c <> 34 -> c <> 10 -> go_string s v -> go_string (c :: s) (c :: v)
| gs_escape : forall e b s v, escape e b -> go_string s v -> go_string (e ++ s) (b ++ v).
Inductive denotes : bytes -> bytes -> Prop :=
| den_raw : forall s, ~ In 96 s -> denotes (96 :: s ++ [96]) s
| den_string : forall s v, go_string s v -> denotes (34 :: s ++ [34]) v.

(** ** The search *)
Section Search.
Variable g : bytes.

Lemma last_name_spec : forall names i d, last_name g names i d = match last_name g names 0 None with Some k => Some (i + k)%nat | None => d end.
Proof.
  induction names as [|n r IH]; intros i d; cbn [last_name]; [reflexivity|].
  rewrite (IH (S i)), (IH 1%nat). destruct (last_name g r 0 None) as [k|]; [f_equal; lia|]. destruct (beq n g); [f_equal; lia|reflexivity].
Qed.
Lemma last_name_none : forall names, last_name g names 0 None = None <-> ~ In g names.
Proof.
  induction names as [|n r IH]; cbn [last_name]; [split; auto|]. rewrite last_name_spec. destruct (last_name g r 0 None) as [k|].
  - split; [discriminate|]. intros H. exfalso. apply H. right. destruct (in_dec (list_eq_dec Z.eq_dec) g r) as [Hi|Hi]; [exact Hi|]. apply IH in Hi. discriminate.
  - destruct (beq n g) eqn:B.
    + apply beq_eq in B. subst n. split; [discriminate|]. intros H. destruct (H (or_introl eq_refl)).
    + apply beq_neq in B. split; [|reflexivity]. intros _ [H|H]; [contradiction|]. destruct (proj1 IH eq_refl H).
Qed.
Lemma last_name_some : forall names k, last_name g names 0 None = Some k -> exists pre post, names = pre ++ g :: post /\ ~ In g post /\ length pre = k.
Proof.
  induction names as [|n r IH]; intros k; cbn [last_name]; [discriminate|]. rewrite last_name_spec. destruct (last_name g r 0 None) as [j|] eqn:L.
  - intros H. injection H as <-. destruct (IH j eq_refl) as (pre & post & -> & N & Hl). exists (n :: pre), post. cbn. rewrite Hl. auto.
  - destruct (beq n g) eqn:B; [|discriminate]. intros H. injection H as <-. apply beq_eq in B. subst n. exists [], r. split; [reflexivity|]. split; [apply last_name_none; exact L|reflexivity].
Qed.
Lemma last_unique : forall pre post pre' post', pre ++ g :: post = pre' ++ g :: post' -> ~ In g post -> ~ In g post' -> length pre = length pre'.
Proof.
  induction pre as [|a pre IH]; intros post [|b pre'] post' H N N'; cbn [app] in H; injection H.
  - reflexivity.
  - intros -> _. exfalso. apply N, in_or_app. right. left. reflexivity.
  - intros <- _. exfalso. apply N', in_or_app. right. left. reflexivity.
  - intros H' _. cbn. f_equal. apply (IH post pre' post'); auto.
Qed.
Lemma first_unique : forall (x : expr) pre post pre' post', pre ++ x :: post = pre' ++ x :: post' -> ~ In x pre -> ~ In x pre' -> length pre = length pre'.
Proof.
  intros x. induction pre as [|a pre IH]; intros post [|b pre'] post' H N N'; cbn [app] in H; injection H.
  - reflexivity.
  - intros _ ->. exfalso. apply N'. left. reflexivity.
  - intros _ ->. exfalso. apply N. left. reflexivity.
  - intros H' _. cbn. f_equal. apply (IH post pre' post'); auto; intros Hi; [apply N|apply N']; right; exact Hi.
Qed.
Lemma first_ident_spec : forall lhs i, match first_ident g lhs i with
  | Some k => exists pre post, lhs = pre ++ EIdent g :: post /\ ~ In (EIdent g) pre /\ k = (i + length pre)%nat
  | None => ~ In (EIdent g) lhs
  end.
Proof.
  induction lhs as [|e r IH]; intros i; cbn [first_ident]; [auto|].
  assert (Next : e <> EIdent g -> match first_ident g r (S i) with
    | Some k => exists pre post, e :: r = pre ++ EIdent g :: post /\ ~ In (EIdent g) pre /\ k = (i + length pre)%nat | None => ~ In (EIdent g) (e :: r) end).
  { intros Hn. specialize (IH (S i)). destruct (first_ident g r (S i)) as [k|].
    - destruct IH as (pre & post & -> & N & ->). exists (e :: pre), post. split; [reflexivity|]. split; [intros [H|H]; auto|cbn; lia].
    - intros [H|H]; auto. }
  destruct e as [n|t|]; try (apply Next; discriminate). destruct (beq n g) eqn:B; [|apply Next; apply beq_neq in B; congruence].
  apply beq_eq in B. subst n. exists [], r. split; [reflexivity|]. split; [auto|cbn; lia].
Qed.
(** what the search finds at a place *)
Definition found (x : option expr) : res bytes := match x with None => Crash | Some (EBasicLit t) => Ok t | Some _ => Ok [] end.
Definition look (p : place) : res bytes :=
  match p with
  | Var names values => match last_name g names 0 None with None => Ok [] | Some i => found (nth_error values i) end
  | Set_ lhs rhs => match first_ident g lhs 0 with None => Ok [] | Some i => found (nth_error rhs i) end
  | NoBody => Crash
  end.
Lemma look_spec : forall p, p = NoBody \/ (exists x, binds g p x /\ look p = found x) \/ (p <> NoBody /\ (forall x, ~ binds g p x) /\ look p = Ok []).
Proof.
  intros [names values|lhs rhs|]; [right| right|left; reflexivity].
  - cbn [look]. destruct (last_name g names 0 None) as [i|] eqn:L.
    + left. destruct (last_name_some _ _ L) as (pre & post & -> & N & <-). eexists. split; [apply binds_var; exact N|reflexivity].
    + right. split; [discriminate|]. split; [|reflexivity]. apply last_name_none in L. intros x H. inversion H; subst. apply L, in_or_app. right. left. reflexivity.
  - cbn [look]. pose proof (first_ident_spec lhs 0) as L. destruct (first_ident g lhs 0) as [i|].
    + left. destruct L as (pre & post & -> & N & ->). eexists. split; [apply binds_set; exact N|reflexivity].
    + right. split; [discriminate|]. split; [|reflexivity]. intros x H. inversion H; subst. apply L, in_or_app. right. left. reflexivity.
Qed.
Lemma binds_fun : forall p x y, binds g p x -> binds g p y -> x = y.
Proof.
  intros p x y H. destruct H as [pre post values N|pre post rhs N]; intros H; inversion H as [pre' post' v' N' E1 E2|pre' post' v' N' E1 E2]; subst.
  - f_equal. symmetry in E1. apply (last_unique pre post pre' post'); congruence || assumption.
  - f_equal. symmetry in E1. apply (first_unique (EIdent g) pre post pre' post'); congruence || assumption.
Qed.
Lemma look_gives : forall p t, t <> [] -> (look p = Ok t <-> gives g p t).
Proof.
  intros p t Ht. unfold gives. destruct (look_spec p) as [->|[(x & B & ->)|(_ & N & ->)]].
  - split; [discriminate|]. intros H. inversion H.
  - split.
    + destruct x as [[n|t'|]|]; cbn; intros H; try congruence; congruence.
    + intros H. rewrite (binds_fun _ _ _ B H). reflexivity.
  - split; [intros H; congruence|]. intros H. destruct (N _ H).
Qed.
Lemma look_breaks : forall p, look p = Crash <-> breaks g p.
Proof.
  intros p. unfold breaks. destruct (look_spec p) as [->|[(x & B & ->)|(P & N & ->)]].
  - split; [left; reflexivity|reflexivity].
  - split.
    + destruct x as [[n|t'|]|]; cbn; try discriminate. right. exact B.
    + intros [->|H]; [inversion B|]. rewrite (binds_fun _ _ _ B H). reflexivity.
  - split; [discriminate|]. intros [H|H]; [contradiction|destruct (N _ H)].
Qed.
Lemma look_no_err : forall p e, look p <> Err e.
Proof. intros p e. destruct (look_spec p) as [->|[([[n|t'|]|] & B & ->)|(_ & _ & ->)]]; discriminate. Qed.
Lemma look_quiet : forall p, ~ gives g p [] -> (look p = Ok [] <-> quiet g p).
Proof.
  intros p Hl. unfold quiet. split.
  - intros H. split; [rewrite <- look_breaks; congruence|]. intros t Ht. destruct t as [|c t]; [contradiction|]. apply look_gives in Ht; [congruence|discriminate].
  - intros (B & G). destruct (look p) as [[|c t]|e|] eqn:L; [reflexivity| |destruct (look_no_err p e L)|].
    + exfalso. apply (G (c :: t)). apply look_gives; [discriminate|exact L].
    + exfalso. apply B, look_breaks. exact L.
Qed.
(** the first place that is not quiet decides *)
Fixpoint first (l : list place) : res bytes := match l with [] => Ok [] | p :: r => match look p with Ok [] => first r | x => x end end.
Lemma first_app : forall l l', first (l ++ l') = match first l with Ok [] => first l' | x => x end.
Proof. induction l as [|p l IH]; intros l'; cbn [first app]; [reflexivity|]. destruct (look p) as [[|c t]|e|]; auto. Qed.
Lemma gendecl_first : forall l, (forall p, In p (spec_places l) -> ~ gives g p []) -> findInGenDecl g l = first (spec_places l).
Proof.
  induction l as [|[n v|] l IH]; intros H; cbn [findInGenDecl]; [reflexivity| |].
  - change (spec_places (ValueSpec n v :: l)) with (Var n v :: spec_places l) in *. cbn [first look].
    assert (H' : forall p, In p (spec_places l) -> ~ gives g p []) by (intros p Hp; apply H; right; exact Hp).
    specialize (H (Var n v) (or_introl eq_refl)).
    destruct (last_name g n 0 None) as [i|] eqn:L; [|apply IH; exact H'].
    destruct (nth_error v i) as [[m|t|]|] eqn:Ev; cbn [found]; try (apply IH; exact H'); [|reflexivity].
    destruct t as [|c t]; [|reflexivity]. exfalso. apply H. destruct (last_name_some _ _ L) as (pre & post & -> & N & <-). unfold gives. rewrite <- Ev. apply binds_var. exact N.
  - apply IH. exact H.
Qed.
Lemma body_first : forall l, (forall p, In p (flat_map stmt_places l) -> ~ gives g p []) -> findInBody g l = first (flat_map stmt_places l).
Proof.
  induction l as [|s l IH]; intros H; cbn [findInBody flat_map]; [reflexivity|]. cbn [flat_map] in H. rewrite first_app.
  rewrite IH by (intros p Hp; apply H, in_or_app; right; exact Hp).
  assert (Hs : forall p, In p (stmt_places s) -> ~ gives g p []) by (intros p Hp; apply H, in_or_app; left; exact Hp).
  destruct s as [specs|lhs rhs|]; cbn [stmt_places] in *; [rewrite gendecl_first by exact Hs; reflexivity| |reflexivity].
  cbn [first]. change (findInAssignment g lhs rhs) with (look (Set_ lhs rhs)). destruct (look (Set_ lhs rhs)) as [[|c t]|e|]; reflexivity.
Qed.
Lemma file_first : forall ds, (forall p, In p (file_places ds) -> ~ gives g p []) -> findInFile g ds = first (file_places ds).
Proof.
  induction ds as [|d ds IH]; intros H; cbn [findInFile]; [reflexivity|]. unfold file_places in *. cbn [flat_map] in *. rewrite first_app.
  rewrite IH by (intros p Hp; apply H, in_or_app; right; exact Hp).
  assert (Hd : findInDecl g d = first (decl_places d)); [|rewrite Hd; reflexivity].
  assert (Hs : forall p, In p (decl_places d) -> ~ gives g p []) by (intros p Hp; apply H, in_or_app; left; exact Hp).
  destruct d as [l|[b|]|]; cbn [findInDecl decl_places] in *; [apply gendecl_first; exact Hs|apply body_first; exact Hs|reflexivity|reflexivity].
Qed.
Fixpoint first_in (l : list (bytes * place)) : res (bytes * bytes) :=
  match l with [] => Ok ([], []) | (pkg, p) :: r => match look p with Ok [] => first_in r | Ok t => Ok (pkg, t) | Err e => Err e | Crash => Crash end end.
Lemma first_in_app : forall pkg l l', first_in (map (pair pkg) l ++ l') = match first l with Ok [] => first_in l' | Ok t => Ok (pkg, t) | Err e => Err e | Crash => Crash end.
Proof. intros pkg. induction l as [|p l IH]; intros l'; cbn [first first_in app map]; [reflexivity|]. destruct (look p) as [[|c t]|e|]; auto. Qed.
Lemma search_first : forall fs, literals g fs -> search g fs = first_in (all_places fs).
Proof.
  induction fs as [|(pkg, ds) fs IH]; intros H; cbn [search]; [reflexivity|]. unfold all_places. cbn [flat_map fst snd]. rewrite first_in_app. fold (all_places fs).
  rewrite IH by (intros q p Hp; apply (H q), in_or_app; right; exact Hp).
  rewrite file_first; [reflexivity|]. intros p Hp. apply (H pkg), in_or_app. left. cbn. apply in_map. exact Hp.
Qed.
Lemma first_in_spec : forall l, (forall pkg p, In (pkg, p) l -> ~ gives g p []) ->
  (first_in l = Ok ([], []) /\ (forall pkg p, In (pkg, p) l -> quiet g p)) \/
  exists pre pkg p post, l = pre ++ (pkg, p) :: post /\ (forall k q, In (k, q) pre -> quiet g q) /\
    (breaks g p /\ first_in l = Crash \/ exists t, t <> [] /\ gives g p t /\ first_in l = Ok (pkg, t)).
Proof.
  induction l as [|(pkg, p) l IH]; intros H; cbn [first_in]; [left; split; [reflexivity|intros ? ? []]|].
  pose proof (H pkg p (or_introl eq_refl)) as Hp. destruct (look p) as [[|c t]|e|] eqn:L.
  - apply look_quiet in L; [|exact Hp]. destruct IH as [(E1 & Q)|(pre & k & q & post & -> & Q & R)]; [intros k q Hq; apply (H k); right; exact Hq| |].
    + left. split; [exact E1|]. intros k q [Hq|Hq]; [injection Hq as <- <-; exact L|apply (Q k); exact Hq].
    + right. exists ((pkg, p) :: pre), k, q, post. split; [reflexivity|]. split; [|exact R]. intros k' q' [Hq|Hq]; [injection Hq as <- <-; exact L|apply (Q k'); exact Hq].
  - right. exists [], pkg, p, l. split; [reflexivity|]. split; [intros ? ? []|]. right. exists (c :: t). split; [discriminate|]. split; [|reflexivity]. apply look_gives; [discriminate|exact L].
  - destruct (look_no_err p e L).
  - right. exists [], pkg, p, l. split; [reflexivity|]. split; [intros ? ? []|]. left. split; [|reflexivity]. apply look_breaks. exact L.
Qed.

(** The grammar taken is the literal opposite its name at the first place that gives it one; until then no place may name it without
    value on the other side, nor be a function without body (the tool panics there). *)
Theorem C84_found : forall fs pkg t, literals g fs ->
  (search g fs = Ok (pkg, t) /\ t <> [] <-> exists pre p post, all_places fs = pre ++ (pkg, p) :: post /\ (forall k q, In (k, q) pre -> quiet g q) /\ gives g p t).
Proof.
  intros fs pkg t H. rewrite (search_first fs H). split.
  - intros (E1 & Ht). destruct (first_in_spec (all_places fs) H) as [(E2 & _)|(pre & k & p & post & E2 & Q & [(_ & R)|(t' & _ & G & R)])]; try congruence.
    rewrite E1 in R. injection R as -> ->. exists pre, p, post. auto.
  - intros (pre & p & post & E1 & Q & G). assert (Hg : t <> []). { intros ->. apply (H pkg p); [rewrite E1; apply in_or_app; right; left; reflexivity|exact G]. }
    split; [|exact Hg]. rewrite E1. clear H E1. induction pre as [|(k, q) pre IH]; cbn [app first_in].
    + apply look_gives in G; [|exact Hg]. rewrite G. destruct t; [congruence|reflexivity].
    + assert (L : look q = Ok []). { apply look_quiet; [|apply (Q k); left; reflexivity]. intros G'. destruct (Q k q (or_introl eq_refl)) as (_ & Q'). destruct (Q' _ G'). }
      rewrite L. apply IH. intros k' q' Hq. apply (Q k'). right. exact Hq.
Qed.
Theorem C84_panics : forall fs, literals g fs ->
  (search g fs = Crash <-> exists pre k p post, all_places fs = pre ++ (k, p) :: post /\ (forall k' q, In (k', q) pre -> quiet g q) /\ breaks g p).
Proof.
  intros fs H. rewrite (search_first fs H). split.
  - intros E1. destruct (first_in_spec (all_places fs) H) as [(E2 & _)|(pre & k & p & post & E2 & Q & [(B & _)|(t' & _ & G & R)])]; try congruence. exists pre, k, p, post. auto.
  - intros (pre & k & p & post & E1 & Q & B). rewrite E1. clear H E1. induction pre as [|(k', q) pre IH]; cbn [app first_in].
    + apply look_breaks in B. rewrite B. reflexivity.
    + assert (L : look q = Ok []). { apply look_quiet; [|apply (Q k'); left; reflexivity]. intros G'. destruct (Q k' q (or_introl eq_refl)) as (_ & Q'). destruct (Q' _ G'). }
      rewrite L. apply IH. intros k2 q' Hq. apply (Q k2). right. exact Hq.
Qed.
Theorem C84_not_found : forall fs, literals g fs -> ((exists pkg, search g fs = Ok (pkg, [])) <-> forall pkg p, In (pkg, p) (all_places fs) -> quiet g p).
Proof.
  intros fs H. rewrite (search_first fs H). split.
  - intros (pkg & E1). destruct (first_in_spec (all_places fs) H) as [(E2 & Q)|(pre & k & p & post & E2 & Q & [(B & R)|(t' & T & G & R)])]; [exact Q|congruence|congruence].
  - intros Q. exists []. destruct (first_in_spec (all_places fs) H) as [(E2 & _)|(pre & k & p & post & E2 & _ & R)]; [exact E2|exfalso].
    destruct (Q k p) as (Q1 & Q2); [rewrite E2; apply in_or_app; right; left; reflexivity|]. destruct R as [(B & _)|(t & _ & G & _)]; [exact (Q1 B)|exact (Q2 t G)].
Qed.

(** In which order Go iterates over packages and files does not matter if only one file has a place that is not quiet. *)
Theorem C84_order : forall fs fs' x l1 l2, Permutation fs fs' -> fs = l1 ++ x :: l2 ->
  (forall pkg ds p, In (pkg, ds) (l1 ++ l2) -> In p (file_places ds) -> quiet g p) -> search g fs = search g fs'.
Proof.
  intros fs fs' x l1 l2 P E Q. subst fs.
  assert (Ql : forall pkg ds, In (pkg, ds) (l1 ++ l2) -> findInFile g ds = Ok []).
  { intros pkg ds Hi. assert (Hq : forall p, In p (file_places ds) -> quiet g p) by (intros p Hp; apply (Q pkg ds p Hi Hp)).
    assert (Hn : forall p, In p (file_places ds) -> ~ gives g p []) by (intros p Hp G'; destruct (Hq p Hp) as (_ & Q'); exact (Q' _ G')).
    rewrite (file_first ds Hn). clear Hi. induction (file_places ds) as [|p l IH]; [reflexivity|]. cbn [first].
    assert (L : look p = Ok []) by (apply look_quiet; [apply Hn|apply Hq]; left; reflexivity). rewrite L. apply IH; intros q Hi; [apply Hq|apply Hn]; right; exact Hi. }
  assert (S : forall a b, (forall pkg ds, In (pkg, ds) (a ++ b) -> findInFile g ds = Ok []) -> search g (a ++ x :: b) = search g [x]).
  { intros a b Ha. induction a as [|(k, ds) a IH]; cbn [app search].
    - destruct x as (k, ds). destruct (findInFile g ds) as [[|c t]|e|]; try reflexivity.
      induction b as [|(k', d') b IH]; cbn [search]; [reflexivity|]. rewrite (Ha k' d') by (left; reflexivity). apply IH. intros pkg d Hd. apply (Ha pkg). right. exact Hd.
    - rewrite (Ha k ds) by (left; reflexivity). apply IH. intros pkg d Hd. apply (Ha pkg). right. exact Hd. }
  assert (Hx : In x fs') by (apply (Permutation_in x P), in_or_app; right; left; reflexivity). destruct (in_split x fs' Hx) as (m1 & m2 & ->).
  rewrite (S l1 l2 Ql). symmetry. apply S. intros pkg ds Hi. apply (Ql pkg). apply Permutation_app_inv in P. apply (Permutation_in _ (Permutation_sym P)). exact Hi.
Qed.
End Search.

(** ** The text the generator is given *)
Lemma encode_length : forall r, (length (EncodeRune r) <= 4)%nat.
Proof. intros r. unfold EncodeRune. destruct (_ || _); repeat destruct (_ <? _); cbn; lia. Qed.
Lemma escape_shorter : forall e b, escape e b -> (length b < length e)%nat.
Proof.
  intros e b H. destruct H as [c v _|ds vs L _ _|ds vs L _|ds vs L _|ds vs L _]; cbn [length]; try (pose proof (encode_length (number 16 vs))); lia.
Qed.
Lemma go_string_length : forall s v, go_string s v -> (length v <= length s)%nat /\ (In 92 s -> (length v < length s)%nat) /\ (~ In 92 s -> v = s).
Proof.
  intros s v H. induction H as [|c s v N1 N2 N3 H (I1 & I2 & I3)|e b s v He H (I1 & I2 & I3)].
  - split; [lia|]. split; [intros []|reflexivity].
  - cbn [length]. split; [lia|]. split; [intros [Hc|Hc]; [congruence|specialize (I2 Hc); lia]|]. intros N. rewrite I3; [reflexivity|]. intros Hi. apply N. right. exact Hi.
  - rewrite !app_length. pose proof (escape_shorter e b He). split; [lia|]. split; [lia|]. intros N. exfalso. apply N, in_or_app. left. destruct He; left; reflexivity.
Qed.
Lemma inner_quoted : forall q s r, inner (q :: s ++ [r]) = Ok s.
Proof.
  intros q s r. unfold inner. cbn [length tl]. rewrite app_length. cbn [length]. replace (S (length s + 1) <? 2)%nat with false by (symmetry; apply Nat.ltb_ge; lia).
  rewrite removelast_last. reflexivity.
Qed.
(** For a string literal the generator is given the bytes between its quotes.  They are its value if the literal is a raw one or
    has no escapes, and only then. *)
Theorem C84_source : forall t v, denotes t v -> exists s, inner t = Ok s /\ (s = v <-> hd 0 t = 96 \/ ~ In 92 s) /\ t = hd 0 t :: s ++ [hd 0 t].
Proof.
  intros t v H. destruct H as [s N|s v H].
  - exists s. split; [apply inner_quoted|]. cbn [hd]. split; [|reflexivity]. split; auto.
  - exists s. split; [apply inner_quoted|]. cbn [hd]. split; [|reflexivity]. destruct (go_string_length s v H) as (_ & L & K). split.
    + intros ->. right. intros Hi. specialize (L Hi). lia.
    + intros [Hc|Hn]; [discriminate|symmetry; apply K; exact Hn].
Qed.
(** The tool panics on a literal of one character, such as the number 5. *)
Theorem C84_one_character : forall c, inner [c] = Crash.
Proof. reflexivity. Qed.

(** ** The command *)
Section Main.
Variable g : bytes.
Variable gen : bytes -> res bytes.
Variable parsed : world -> res (list (bytes * list decl)).
Variable removable : path -> bool.
Variable creatable : path -> option bytes.
Variable template : res unit.
Variable exec : bytes -> bytes -> bytes.
Notation tplgen := (tplgen g gen parsed removable creatable template exec).

(** the world in which the package is parsed: the output file has been removed if it could be *)
Definition cleared (w : world) (output : path) : world := if removable output then set_file w output None else w.
(** the grammar found in the package is given to the generator *)
Definition generated (w : world) (output : path) (pkg code : bytes) : Prop := exists fs t src,
  parsed (cleared w output) = Ok fs /\ search g fs = Ok (pkg, t) /\ t <> [] /\ inner t = Ok src /\ gen src = Ok code.
Lemma tplgen_run : forall w output,
  (exists pkg code, generated w output pkg code /\ creatable output = None /\ template = Ok tt /\ snd (tplgen w output) = 0 /\
     files (fst (tplgen w output)) output = Some (overwrite (match files (cleared w output) output with Some c => c | None => [] end) (exec pkg code))) \/
  (~ exists pkg code, generated w output pkg code /\ creatable output = None /\ template = Ok tt) /\ snd (tplgen w output) <> 0 /\
  (files (fst (tplgen w output)) output = files (cleared w output) output \/
   (exists pkg code, generated w output pkg code) /\ creatable output = None /\
   files (fst (tplgen w output)) output = Some (match files (cleared w output) output with Some c => c | None => [] end)).
Proof.
  intros w output. unfold Cmd.tplgen. fold (cleared w output).
  destruct (parsed (cleared w output)) as [fs|e|] eqn:E1; try (right; split; [intros (? & ? & (fs & t & s & H & _) & _); congruence|split; [discriminate|left; reflexivity]]).
  destruct (search g fs) as [[pkg [|c t]]|e|] eqn:E2; try (right; split; [intros (? & ? & (fs' & t' & s & H & H2 & H3 & _) & _); congruence|split; [discriminate|left; reflexivity]]).
  destruct (inner (c :: t)) as [s|e|] eqn:E3; try (right; split; [intros (? & ? & (fs' & t' & s' & H & H2 & H3 & H4 & _) & _); congruence|split; [discriminate|left; reflexivity]]).
  destruct (gen s) as [code|e|] eqn:E4; try (right; split; [intros (? & ? & (fs' & t' & s' & H & H2 & H3 & H4 & H5) & _); congruence|split; [discriminate|left; reflexivity]]).
  assert (G : generated w output pkg code) by (exists fs, (c :: t), s; repeat split; congruence).
  destruct (creatable output) as [e|] eqn:E5; [right; split; [intros (? & ? & _ & H & _); congruence|split; [discriminate|left; reflexivity]]|].
  destruct template as [[]|e|] eqn:E6.
  - left. exists pkg, code. repeat split; auto. cbn [fst set_file files]. rewrite beq_refl. reflexivity.
  - right. split; [intros (? & ? & _ & _ & H); congruence|]. split; [discriminate|]. right. split; [eauto|]. split; [reflexivity|]. cbn [fst say fail_with set_file files]. rewrite beq_refl. reflexivity.
  - right. split; [intros (? & ? & _ & _ & H); congruence|]. split; [discriminate|]. right. split; [eauto|]. split; [reflexivity|]. cbn [fst set_file files]. rewrite beq_refl. reflexivity.
Qed.
Lemma generated_fun : forall w output pkg code pkg' code', generated w output pkg code -> generated w output pkg' code' -> pkg = pkg' /\ code = code'.
Proof. intros w output pkg code pkg' code' (fs & t & s & A1 & A2 & A3 & A4 & A5) (fs' & t' & s' & B1 & B2 & B3 & B4 & B5). split; congruence. Qed.
(** The command succeeds exactly if a grammar is found, the generator accepts it, and the output file and its template can be opened; *)
Theorem C84_success : forall w output, snd (tplgen w output) = 0 <-> (exists pkg code, generated w output pkg code) /\ creatable output = None /\ template = Ok tt.
Proof.
  intros w output. destruct (tplgen_run w output) as [(pkg & code & G & C & T & E & _)|(N & E & _)].
  - split; [intros _; eauto|intros _; exact E].
  - split; [contradiction|]. intros ((pkg & code & G) & C & T). destruct N. eauto.
Qed.
(** then the output file holds what the template makes of the package and the code (if an old file could be removed), *)
Theorem C84_output : forall w output pkg code, removable output = true -> generated w output pkg code -> snd (tplgen w output) = 0 ->
  files (fst (tplgen w output)) output = Some (exec pkg code).
Proof.
  intros w output pkg code R G E. destruct (tplgen_run w output) as [(pkg' & code' & G' & _ & _ & _ & H)|(_ & H & _)]; [|contradiction].
  destruct (generated_fun _ _ _ _ _ _ G G') as (<- & <-). rewrite H. unfold cleared. rewrite R. cbn [set_file files]. rewrite beq_refl. unfold overwrite. rewrite skipn_nil, app_nil_r. reflexivity.
Qed.
(** and otherwise what it held before is gone. *)
Theorem C84_failure : forall w output, removable output = true -> snd (tplgen w output) <> 0 ->
  files (fst (tplgen w output)) output = None \/ files (fst (tplgen w output)) output = Some [] /\ (exists pkg code, generated w output pkg code) /\ creatable output = None /\ template <> Ok tt.
Proof.
  intros w output R E. destruct (tplgen_run w output) as [(pkg' & code' & _ & _ & _ & H & _)|(N & _ & H)]; [contradiction|].
  assert (Cl : files (cleared w output) output = None) by (unfold cleared; rewrite R; cbn [set_file files]; rewrite beq_refl; reflexivity). rewrite Cl in H.
  destruct H as [H|(G & C & H)]; [left; exact H|right]. split; [exact H|]. split; [exact G|]. split; [exact C|]. intros T. apply N. destruct G as (pkg & code & G). eauto.
Qed.
(** No other file changes and nothing is printed to standard output. *)
Theorem C84_frame : forall w output, stdout (fst (tplgen w output)) = stdout w /\ forall p, p <> output -> files (fst (tplgen w output)) p = files w p.
Proof.
  intros w output.
  assert (S : forall v c p, p <> output -> files (set_file v output c) p = files v p).
  { intros v c p Hp. cbn. destruct (beq p output) eqn:B; [apply beq_eq in B; contradiction|reflexivity]. }
  assert (C : stdout (cleared w output) = stdout w /\ forall p, p <> output -> files (cleared w output) p = files w p).
  { unfold cleared. destruct (removable output); [|auto]. split; [reflexivity|]. intros p Hp. apply S. exact Hp. }
  unfold Cmd.tplgen. fold (cleared w output). destruct (parsed _) as [fs|e|]; [|exact C|exact C]. destruct (search g fs) as [[pkg [|c t]]|e|]; try exact C.
  destruct (inner (c :: t)) as [s|e|]; try exact C. destruct (gen s) as [code|e|]; try exact C. destruct (creatable output); [exact C|]. destruct C as (C1 & C2).
  destruct template as [[]|e|]; (split; [exact C1|]); intros p Hp; cbn [fst say fail_with files]; rewrite !S by exact Hp; apply C2; exact Hp.
Qed.
(** A removal that fails goes unnoticed: if the old file is longer than the new text, its end stays. *)
Theorem C84_kept : forall w output pkg code old, removable output = false -> files w output = Some old -> generated w output pkg code -> snd (tplgen w output) = 0 ->
  files (fst (tplgen w output)) output = Some (exec pkg code ++ skipn (length (exec pkg code)) old).
Proof.
  intros w output pkg code old R F G E. destruct (tplgen_run w output) as [(pkg' & code' & G' & _ & _ & _ & H)|(_ & H & _)]; [|contradiction].
  destruct (generated_fun _ _ _ _ _ _ G G') as (<- & <-). rewrite H. unfold cleared. rewrite R, F. reflexivity.
Qed.
End Main.

(** ** Instances *)
From Verif Require Import Scanner Tokenize Grammar Matcher Compiler Gen PropScan.
Local Open Scope list_scope.
Definition xg_gen (src : bytes) : Cmd.res bytes :=
  match GenStaticCode (fun _ => false) (fun _ => false) 300 PropScan.fresh src with GenOk vs gs => Ok (gen_output vs gs) | GenPanic _ => Crash | _ => Err (s2b "no grammar") end.
Definition raw (s : string) : expr := EBasicLit ([96] ++ s2b s ++ [96]).
Definition str (s : string) : expr := EBasicLit ([34] ++ s2b s ++ [34]).
Definition name_grammar : bytes := Eval vm_compute in s2b "grammar".
(** package calc: var x, grammar = f(), `doc = INT;`  with a function before it that has grammar = y *)
Definition ex_file : list decl :=
  [FuncDecl (Some [AssignStmt [EIdent (s2b "grammar")] [EIdent (s2b "y")]; OtherStmt]); GenDecl [OtherSpec; ValueSpec [s2b "x"; s2b "grammar"] [EOther; raw "doc = INT;"]]].
Definition ex_other : list decl := [FuncDecl (Some [DeclStmt [ValueSpec [s2b "z"] [str "1"]]])].
Definition xg_run (fs : list (bytes * list decl)) : world * Z :=
  Cmd.tplgen name_grammar xg_gen (fun _ => Ok fs) (fun _ => true) (fun _ => None) (Ok tt) (fun pkg code => s2b "package " ++ pkg ++ nl ++ code)
    (mkW (fun p => if beq p (s2b "out.go") then Some (s2b "old") else None) [] []) (s2b "out.go").
Example C84_instance : literals name_grammar [(s2b "main", ex_other); (s2b "calc", ex_file)] /\
  search name_grammar [(s2b "main", ex_other); (s2b "calc", ex_file)] = Ok (s2b "calc", [96] ++ s2b "doc = INT;" ++ [96]) /\
  denotes ([96] ++ s2b "doc = INT;" ++ [96]) (s2b "doc = INT;") /\
  snd (xg_run [(s2b "main", ex_other); (s2b "calc", ex_file)]) = 0 /\
  files (fst (xg_run [(s2b "main", ex_other); (s2b "calc", ex_file)])) (s2b "out.go") =
    Some (s2b "package calc" ++ nl ++ gen_output [] [(s2b "doc", s2b "tpl.Gr(tpl.INT)")]) /\
  quiet name_grammar (Set_ [EIdent (s2b "grammar")] [EIdent (s2b "y")]) /\ gives name_grammar (Var [s2b "x"; s2b "grammar"] [EOther; raw "doc = INT;"]) ([96] ++ s2b "doc = INT;" ++ [96]).
Proof.
  assert (Gv : gives name_grammar (Var [s2b "x"; s2b "grammar"] [EOther; raw "doc = INT;"]) ([96] ++ s2b "doc = INT;" ++ [96])).
  { exact (binds_var name_grammar [s2b "x"] [] [EOther; raw "doc = INT;"] (fun H => H)). }
  assert (B1 : binds name_grammar (Set_ [EIdent (s2b "grammar")] [EIdent (s2b "y")]) (Some (EIdent (s2b "y")))) by exact (binds_set name_grammar [] [] [EIdent (s2b "y")] (fun H => H)).
  split. { intros pkg p Hi G. vm_compute in Hi. destruct Hi as [Hi|[Hi|[Hi|[]]]]; injection Hi as <- <-.
    - inversion G as [pre post v N E1 E2|]; subst. destruct pre as [|a [|b pre]]; injection E1; intros; discriminate.
    - pose proof (binds_fun _ _ _ _ B1 G). discriminate.
    - pose proof (binds_fun _ _ _ _ Gv G). discriminate. }
  split; [vm_compute; reflexivity|]. split; [apply (den_raw (s2b "doc = INT;")); vm_compute; intuition congruence|].
  split; [vm_compute; reflexivity|]. split; [vm_compute; reflexivity|]. split; [|exact Gv]. split.
  - intros [H|H]; [discriminate|]. pose proof (binds_fun _ _ _ _ B1 H). discriminate.
  - intros t H. pose proof (binds_fun _ _ _ _ B1 H). discriminate.
Qed.
(** With the name in two packages the result depends on Go's order of iteration over a map. *)
Theorem C84_order_refuted : exists fs fs', Permutation fs fs' /\ search name_grammar fs <> search name_grammar fs'.
Proof.
  exists [(s2b "calc", ex_file); (s2b "calc_test", [GenDecl [ValueSpec [s2b "grammar"] [raw "doc = 1;"]]])], [(s2b "calc_test", [GenDecl [ValueSpec [s2b "grammar"] [raw "doc = 1;"]]]); (s2b "calc", ex_file)].
  split; [apply perm_swap|vm_compute; discriminate].
Qed.
(** A declaration without a value makes the tool panic, though the grammar is assigned later: var grammar string; grammar = `...`; and so does an
    interpreted literal that was fine for Go: its escapes reach the generator. *)
Theorem C84_declared_refuted : snd (xg_run [(s2b "p", [FuncDecl (Some [DeclStmt [ValueSpec [s2b "grammar"] []]; AssignStmt [EIdent (s2b "grammar")] [raw "doc = INT;"]])])]) = 2.
Proof. vm_compute. reflexivity. Qed.
Theorem C84_source_refuted : denotes (34 :: s2b "doc = \x31;" ++ [34]) (s2b "doc = 1;") /\ inner (34 :: s2b "doc = \x31;" ++ [34]) = Ok (s2b "doc = \x31;") /\
  xg_gen (s2b "doc = 1;") = Ok (gen_output [] [(s2b "doc", s2b "tpl.GrTrue")]) /\ xg_gen (s2b "doc = \x31;") <> xg_gen (s2b "doc = 1;").
Proof.
  split; [|split; [vm_compute; reflexivity|split; [vm_compute; reflexivity|vm_compute; discriminate]]].
  apply den_string. change (s2b "doc = \x31;") with ([100; 111; 99; 32; 61; 32] ++ [92; 120; 51; 49] ++ [59]). change (s2b "doc = 1;") with ([100; 111; 99; 32; 61; 32] ++ [49] ++ [59]).
  cbn [app]. repeat (apply gs_plain; [discriminate|discriminate|discriminate|]). apply (gs_escape [92; 120; 51; 49] [49] [59] [59]).
  - apply (esc_hex [51; 49] [3; 1]); [reflexivity|]. constructor; [left; lia|constructor; [left; lia|constructor]].
  - apply gs_plain; [discriminate|discriminate|discriminate|apply gs_nil].
Qed.

Print Assumptions C84_found.
Print Assumptions C84_panics.
Print Assumptions C84_not_found.
Print Assumptions C84_order.
Print Assumptions C84_source.
Print Assumptions C84_one_character.
Print Assumptions C84_success.
Print Assumptions C84_output.
Print Assumptions C84_failure.
Print Assumptions C84_frame.
Print Assumptions C84_kept.
Print Assumptions C84_order_refuted.
Print Assumptions C84_declared_refuted.
Print Assumptions C84_source_refuted.
