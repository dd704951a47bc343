(** C77: the list literals and indices of qlang programs, which the model of programs (Qlang.v) has as values, are the slices of QCont.v. *)
From Coq Require Import String SpecFloat.
From Verif Require Import Base Token Utf8 Scanner Tokenize Grammar Matcher Compiler Interp QValue QCont QContSpec QContP PropCont.
From Verif Require Qlang.
Local Open Scope Z_scope.

(** ** Specification: the value that a program sees *)
Inductive elem_ty : ty -> etype -> Prop := et_var : elem_ty TyVar TAny | et_int : elem_ty TyInt TInt | et_float : elem_ty TyFloat TFloat | et_string : elem_ty TyString TString | et_byte : elem_ty TyByte TByte.
Inductive shows (h : heap) : cv -> value -> Prop :=
| sh_nil : shows h CNil VNil
| sh_int : forall z, shows h (CInt z) (VInt z)
| sh_bool : forall b, shows h (CBool b) (VBool b)
| sh_float : forall f, shows h (CFloat f) (VFloat f)
| sh_str : forall b, shows h (CStr b) (VStr b)
| sh_byte : forall z, shows h (CByte z) (VByte z)
| sh_undef : shows h CUndef VUndefined
| sh_slice : forall t u a off len cap l, elem_ty t u -> shows_all h (elems h (CSlice t a off len cap)) l -> shows h (CSlice t a off len cap) (VSlice u l)
with shows_all (h : heap) : list cv -> list value -> Prop :=
| sh_none : shows_all h [] []
| sh_more : forall c v cs vs, shows h c v -> shows_all h cs vs -> shows_all h (c :: cs) (v :: vs).
Scheme shows_ind2 := Minimality for shows Sort Prop with shows_all_ind2 := Minimality for shows_all Sort Prop.
Combined Scheme shows_both from shows_ind2, shows_all_ind2.

(** ** Proofs *)
Lemma shows_others : forall h h' T, heap_in T h -> others h h' -> (forall c v, shows h c v -> val_in T c -> shows h' c v) /\ (forall cs vs, shows_all h cs vs -> Forall (val_in T) cs -> shows_all h' cs vs).
Proof.
  intros h h' T I O.
  assert (G : (forall c v, shows h c v -> shows h c v /\ (val_in T c -> shows h' c v)) /\ (forall cs vs, shows_all h cs vs -> shows_all h cs vs /\ (Forall (val_in T) cs -> shows_all h' cs vs))).
  { apply (shows_both h (fun c v => shows h c v /\ (val_in T c -> shows h' c v)) (fun cs vs => shows_all h cs vs /\ (Forall (val_in T) cs -> shows_all h' cs vs))); try (intros; split; [constructor|intros _; constructor]; fail).
    - intros t u a off len cap l E _ (IH1 & IH2). split; [constructor; assumption|]. intro V. constructor; [exact E|]. assert (S : sound h [CSlice t a off len cap]) by (exists T; auto). rewrite (proj2 O _ S). apply IH2.
      apply Forall_forall. intros x Hx. apply (In_nth _ _ CNil) in Hx. destruct Hx as (n & Ln & <-). rewrite (proj1 (C77_length _ _ _ _ _ _ S)) in Ln. change (nth n (elems h (CSlice t a off len cap)) CNil) with (elem h (CSlice t a off len cap) n).
      rewrite elem_cell by exact Ln. apply (cell_in T h t a off len cap n I V). destruct V. lia.
    - intros c v cs vs _ (A1 & A2) _ (B1 & B2). split; [constructor; assumption|]. intro V. inversion V; subst. constructor; auto. }
  destruct G as (G1 & G2). split; intros; [apply G1|apply G2]; assumption.
Qed.
Lemma shows_kind : forall h c v, shows h c v -> ckind c = kindOf v.
Proof. intros h c v S. inversion S; reflexivity. Qed.
Lemma shows_kinds : forall h cs vs, shows_all h cs vs -> kinds cs = kindOfArgs vs.
Proof.
  assert (G : forall h cs vs, shows_all h cs vs -> forall k, kinds_rest k cs = kindOfRest k vs).
  { intros h cs vs S. induction S as [|c v cs vs S1 S IH]; intro k; [reflexivity|]. cbn [kinds_rest kindOfRest]. rewrite (shows_kind _ _ _ S1). cbv zeta. destruct (kindOf v =? k); [apply IH|]. destruct ((k =? kFloat64) || (k =? kInt))%bool; [|reflexivity]. destruct (kindOf v =? kInt); [apply IH|]. destruct (kindOf v =? kFloat64); [apply IH|reflexivity]. }
  intros h cs vs S. destruct S as [|c v cs vs S1 S]; [reflexivity|]. unfold kinds, kindOfArgs. rewrite (shows_kind _ _ _ S1). exact (G _ _ _ S _).
Qed.
Lemma shows_conv : forall h cs vs, shows_all h cs vs -> forallb is_number cs = true -> shows_all h (map (conv TyFloat) cs) (map (fun v => match asFloat v with Some f => VFloat f | None => v end) vs).
Proof.
  intros h cs vs S. induction S as [|c v cs vs S1 S IH]; intro F; [constructor|]. cbn in F. apply andb_true_iff in F. destruct F as (F1 & F2). cbn [map]. constructor; [|apply IH, F2]. destruct S1; try discriminate F1; constructor.
Qed.
Lemma shows_len : forall h cs vs, shows_all h cs vs -> length cs = length vs.
Proof. intros h cs vs S. induction S; cbn; congruence. Qed.
(** [v1, ..., vn] in a program *)
Theorem C77_literal : forall g h args vs, sound h args -> shows_all h args vs -> exists s h', CSliceFrom g args h = (Some s, h') /\ shows h' s (Qlang.SliceFrom vs) /\ others h h'.
Proof.
  intros g h args vs (T & I & V) S. destruct args as [|c cs].
  - inversion S; subst. eexists _, h. split; [reflexivity|]. split; [constructor; constructor|]. split; [reflexivity|auto].
  - destruct (C77_sliceFrom g h (c :: cs)) as (s & h' & E & D & El & L1 & L2 & F & O); [discriminate|]. exists s, h'. split; [exact E|]. split; [|exact O].
    assert (K := shows_kinds _ _ _ S). assert (N : c :: cs <> []) by discriminate. assert (KC := kinds_common (c :: cs) N). destruct s; try discriminate D. injection D as ->.
    assert (Sa : shows_all h' (map (conv (common (c :: cs))) (c :: cs)) (match common (c :: cs) with TyFloat => map (fun v => match asFloat v with Some f => VFloat f | None => v end) vs | _ => vs end)).
    { destruct (common_cases (c :: cs)) as [C|[C|[C|C]]]; rewrite C.
      2: { apply shows_conv; [apply (shows_others h h' T I O); assumption|]. unfold common in C. destruct (forallb is_int (c :: cs)); [discriminate C|]. destruct (forallb is_number (c :: cs)); [reflexivity|]. destruct (forallb is_string (c :: cs)); discriminate C. }
      all: replace (map (conv _) (c :: cs)) with (c :: cs) by (symmetry; apply (map_id (c :: cs)) || (rewrite <- (map_id (c :: cs)) at 2; apply map_ext; intros []; reflexivity)); apply (shows_others h h' T I O); assumption. }
    rewrite <- El in Sa. unfold Qlang.SliceFrom. destruct vs as [|v vs]; [inversion S|]. cbv zeta. rewrite <- K.
    destruct (common_cases (c :: cs)) as [C|[C|[C|C]]]; rewrite C in Sa, KC |- *.
    + rewrite KC. constructor; [constructor|exact Sa].
    + rewrite KC. constructor; [constructor|exact Sa].
    + rewrite KC. constructor; [constructor|exact Sa].
    + destruct KC as (K1 & K2 & K3). apply Z.eqb_neq in K1, K2, K3. rewrite K1, K2, K3. constructor; [constructor|exact Sa].
Qed.
Lemma shows_nth : forall h cs vs n, shows_all h cs vs -> shows h (nth n cs CNil) (nth n vs VNil).
Proof. intros h cs vs n S. revert n. induction S; intros [|n]; cbn; try constructor; auto. Qed.
(** a[i] in a program: what get gives, or a panic if get panics *)
Theorem C77_index : forall W (L : Qlang.qlib W) h c v k key (st : est nat value Qlang.rest), sound h [c] -> shows h c v -> shows h k key -> (exists t a off len cap, c = CSlice t a off len cap) \/ (exists b, c = CStr b) ->
  match fst (CGet c k h) with
  | Some x => exists y, Qlang.Get L v key st = inl (y, st) /\ shows h x y
  | None => Qlang.Get L v key st = inr (PUser rt_error, st)
  end.
Proof.
  intros W L h c v k key st S Sc Sk D. destruct D as [(t & a & off & len & cap & ->)|(b & ->)]; inversion Sc; subst.
  - destruct (C77_get h t a off len cap k) as (_ & G). pose proof (shows_len _ _ _ H6) as Ll. rewrite (proj1 (C77_length _ _ _ _ _ _ S)) in Ll. assert (Ll' : (len <= length l <= len)%nat) by lia. clear Ll.
    destruct (fst (CGet (CSlice t a off len cap) k h)) as [x|] eqn:E.
    + destruct (proj1 (G x) eq_refl) as (i & -> & Li & ->). inversion Sk; subst. cbn [Qlang.Get]. rewrite (proj2 (Z.leb_le 0 _)), (proj2 (Z.ltb_lt _ _)) by lia. cbn [andb]. eexists. split; [reflexivity|]. rewrite Nat2Z.id. apply shows_nth. exact H6.
    + inversion Sk; subst; try reflexivity. cbn [Qlang.Get]. destruct (Z.leb_spec 0 z), (Z.ltb_spec z (Z.of_nat (length l))); try reflexivity. exfalso.
      assert (X : None = Some (elem h (CSlice t a off len cap) (Z.to_nat z))) by (apply G; exists (Z.to_nat z); split; [rewrite Z2Nat.id by assumption; reflexivity|split; [lia|reflexivity]]). discriminate X.
  - destruct (C77_get_string h b k) as (_ & G). destruct (fst (CGet (CStr b) k h)) as [x|] eqn:E.
    + destruct (proj1 (G x) eq_refl) as (i & -> & Li & ->). inversion Sk; subst. cbn [Qlang.Get]. rewrite (proj2 (Z.leb_le 0 _)), (proj2 (Z.ltb_lt _ _)) by lia. cbn [andb]. eexists. split; [reflexivity|]. rewrite Nat2Z.id. constructor.
    + inversion Sk; subst; try reflexivity. cbn [Qlang.Get]. destruct (Z.leb_spec 0 z), (Z.ltb_spec z (Z.of_nat (length b))); try reflexivity. exfalso.
      assert (X : None = Some (CByte (nth (Z.to_nat z) b 0))) by (apply G; exists (Z.to_nat z); split; [rewrite Z2Nat.id by assumption; reflexivity|split; [lia|reflexivity]]). discriminate X.
Qed.
(** [[1, 2.0], "a"] *)
Example literal : forall g, exists s h', CSliceFrom g [CSlice TyFloat 0 0 2 2; CStr (s2b "a")] (mkHeap [[CFloat (f_of_int 1); CFloat (f_of_int 2)]] []) = (Some s, h') /\ shows h' s (Qlang.SliceFrom [Qlang.SliceFrom [VInt 1; VFloat (f_of_int 2)]; VStr (s2b "a")]).
Proof.
  intro g. destruct (C77_literal g (mkHeap [[CFloat (f_of_int 1); CFloat (f_of_int 2)]] []) [CSlice TyFloat 0 0 2 2; CStr (s2b "a")] [Qlang.SliceFrom [VInt 1; VFloat (f_of_int 2)]; VStr (s2b "a")]) as (s & h' & E & S & _); [| |exists s, h'; auto].
  - exists (mkTyping [(TyFloat, 2%nat)] []). split.
    + split; [|constructor]. constructor; [|constructor]. split; [reflexivity|]. constructor; [split; [right; reflexivity|exact Logic.I]|]. constructor; [split; [right; reflexivity|exact Logic.I]|constructor].
    + constructor; [split; [apply Nat.le_refl|]; intros _; exists 2%nat; split; [reflexivity|apply Nat.le_refl]|constructor; [exact Logic.I|constructor]].
  - constructor; [|constructor; constructor]. constructor; [constructor|]. cbn. repeat constructor.
Qed.
Print Assumptions C77_literal.
Print Assumptions C77_index.
