(** C77 and C78: slices and maps of qlang programs. *)
From Coq Require Import String SpecFloat.
From Verif Require Import Base Token Utf8 Scanner Tokenize Grammar Matcher Compiler Interp QValue QCont QContSpec QContP.
Local Open Scope Z_scope.

(** ** Histories *)
(** after any calls, whatever their arguments and whether or not they panicked, slices are within their arrays and hold elements of their type, the keys of maps are distinct, ... *)
Theorem C77_reached : forall g h vs, reached g h vs -> sound h vs.
Proof. exact reached_sound. Qed.
(** so what get returns has the element type *)
Theorem C77_typed : forall h t a off len cap key v h', sound h [CSlice t a off len cap] -> CGet (CSlice t a off len cap) key h = (Some v, h') -> has_type v t.
Proof.
  intros h t a off len cap key v h' (T & I & S) E. inversion S as [|? ? S1 _]; subst. cbn in E. unfold bind, must in E. destruct (in_range key len) as [i|] eqn:R; [|discriminate E]. injection E as <- <-.
  apply in_range_lt in R. apply (cell_in T h t a off len cap i I S1). destruct S1. lia.
Qed.
Theorem C78_typed : forall h k v m key x h', sound h [CMap k v m] -> CGet (CMap k v m) key h = (Some x, h') -> x = CUndef \/ has_type x v.
Proof.
  intros h k v m key x h' (T & I & S) E. inversion S as [|? ? S1 _]; subst. destruct (keep_CGet T (CMap k v m) key S1 h I) as (T' & _ & _ & Q). rewrite E in Q. destruct (Q x eq_refl) as (_ & [H|(t & H1 & H2)]); [auto|]. injection H1 as <-. auto.
Qed.

(** ** Elements *)
Lemma nth_firstn : forall A (d : A) n l j, (j < n)%nat -> nth j (firstn n l) d = nth j l d.
Proof. induction n as [|n IH]; intros [|x l] [|j] L; cbn; try lia; auto. apply IH. lia. Qed.
Lemma nth_skipn : forall A (d : A) n l j, nth j (skipn n l) d = nth (n + j) l d.
Proof. induction n as [|n IH]; intros [|x l] j; cbn; auto. destruct j; reflexivity. Qed.
Lemma elem_cell : forall h t a off len cap j, (j < len)%nat -> elem h (CSlice t a off len cap) j = cell h a (off + j).
Proof. intros. unfold elem, elems, cell. rewrite nth_firstn by assumption. apply nth_skipn. Qed.
Lemma bounds : forall h t a off len cap, sound h [CSlice t a off len cap] -> (len <= cap)%nat /\ ((0 < cap)%nat -> (a < length (arrs h))%nat /\ (off + cap <= length (arr h a))%nat).
Proof.
  intros h t a off len cap (T & (I & _) & S). inversion S as [|? ? S0 _]; subst. destruct S0 as (S1 & S2). split; [exact S1|]. intro H. destruct (S2 H) as (n & N & O). destruct (Forall2_nth _ _ _ _ _ _ _ [] I N) as (E & _). cbn in E.
  split; [rewrite <- (Forall2_len _ _ _ _ _ I); apply nth_error_Some; congruence|]. unfold arr. lia.
Qed.
Theorem C77_length : forall h t a off len cap, sound h [CSlice t a off len cap] -> length (elems h (CSlice t a off len cap)) = len /\ (len <= cap)%nat.
Proof.
  intros h t a off len cap S. destruct (bounds _ _ _ _ _ _ S) as (A & B). split; [|exact A]. cbn. rewrite firstn_length, skipn_length. destruct (Nat.eq_dec len 0) as [->|N]; [reflexivity|]. destruct B as (_ & B); lia.
Qed.
(** get: exactly the indices below the length *)
Theorem C77_get : forall h t a off len cap key, let s := CSlice t a off len cap in
  snd (CGet s key h) = h /\ forall v, fst (CGet s key h) = Some v <-> exists i, key = CInt (Z.of_nat i) /\ (i < len)%nat /\ v = elem h s i.
Proof.
  intros h t a off len cap key s. cbn. unfold bind, must. destruct (in_range key len) as [i|] eqn:E; cbn.
  - apply in_range_lt in E. destruct E as (-> & L). split; [reflexivity|]. intro v. split.
    + intros [= <-]. exists i. split; [reflexivity|]. split; [exact L|]. symmetry. exact (elem_cell h t a off len cap i L).
    + intros (j & [= E] & Lj & ->). assert (j = i) by lia. subst. f_equal. symmetry. exact (elem_cell h t a off len cap i L).
  - split; [reflexivity|]. intro v. split; [discriminate|]. intros (i & -> & L & _). rewrite (proj2 (in_range_lt _ _ i)) in E by auto. discriminate E.
Qed.
Theorem C77_get_string : forall h b key, snd (CGet (CStr b) key h) = h /\ forall v, fst (CGet (CStr b) key h) = Some v <-> exists i, key = CInt (Z.of_nat i) /\ (i < length b)%nat /\ v = CByte (nth i b 0).
Proof.
  intros h b key. cbn. unfold bind, must. destruct (in_range key (length b)) as [i|] eqn:E; cbn.
  - apply in_range_lt in E. destruct E as (-> & L). split; [reflexivity|]. intro v. split; [intros [= <-]; eauto|]. intros (j & [= E] & Lj & ->). assert (j = i) by lia. subst. reflexivity.
  - split; [reflexivity|]. intro v. split; [discriminate|]. intros (i & -> & L & _). rewrite (proj2 (in_range_lt _ _ i)) in E by auto. discriminate E.
Qed.

(** ** set on slices *)
Lemma arr_write : forall a i v h a', arr (snd (write a i v h)) a' = if (a' =? a)%nat then upd i v (arr h a) else arr h a'.
Proof.
  intros a i v h a'. unfold arr, write. cbn [snd arrs]. rewrite nth_upd. destruct (Nat.eqb_spec a' a) as [->|N]; cbn [andb]; [|reflexivity]. destruct (Nat.ltb_spec a (length (arrs h))) as [L|L]; [reflexivity|].
  rewrite nth_overflow by exact L. destruct i; reflexivity.
Qed.
Lemma cell_write : forall a i v h a' j, (i < length (arr h a))%nat -> cell (snd (write a i v h)) a' j = if ((a' =? a) && (j =? i))%nat then v else cell h a' j.
Proof.
  intros a i v h a' j L. unfold cell. rewrite arr_write. destruct (Nat.eqb_spec a' a) as [->|N]; cbn; [|reflexivity]. rewrite nth_upd. apply Nat.ltb_lt in L. rewrite L, andb_true_r. reflexivity.
Qed.
Theorem C77_set : forall h t a off len cap key v, let s := CSlice t a off len cap in sound h [s] ->
  (exists h', CSet s [key; v] h = (Some tt, h')) <-> (exists i, key = CInt (Z.of_nat i) /\ (i < len)%nat) /\ storable v t.
Proof.
  intros h t a off len cap key v s S. cbn. unfold bind, must. destruct (in_range key len) as [i|] eqn:E; cbn.
  - apply in_range_lt in E. destruct (assignable v t) eqn:A; cbn.
    + apply assignable_iff in A. split; [intros _; split; [exists i; exact E|exact A]|intros _; eexists; reflexivity].
    + split; [intros (h' & [=])|]. intros (_ & B). apply assignable_iff in B. congruence.
  - split; [intros (h' & [=])|]. intros ((i & -> & L) & _). rewrite (proj2 (in_range_lt _ _ i)) in E by auto. discriminate E.
Qed.
(** the new value is seen at that place by every slice that has it, and nothing else changes *)
Theorem C77_set_effect : forall h t a off len cap i v h', let s := CSlice t a off len cap in sound h [s] -> CSet s [CInt (Z.of_nat i); v] h = (Some tt, h') ->
  maps h' = maps h /\ forall s2, length (elems h' s2) = length (elems h s2) /\ forall j, (j < slen s2)%nat -> elem h' s2 j = if same_place (place s i) (place s2 j) then v else elem h s2 j.
Proof.
  intros h t a off len cap i v h' s S. unfold s at 1, CSet. cbn [length Nat.odd pairs set_slice]. unfold bind, must. destruct (in_range (CInt (Z.of_nat i)) len) as [i0|] eqn:E; [|discriminate]. apply in_range_lt in E. destruct E as (E & L). injection E as E. assert (i0 = i) by lia. subst i0. clear E.
  destruct (assignable v t); [|discriminate]. intro H. assert (X : h' = snd (write a (off + i) v h)) by (cbn in H; injection H as <-; reflexivity). clear H. subst h'.
  destruct (bounds _ _ _ _ _ _ S) as (B1 & B2). destruct B2 as (B2 & B3); [lia|]. split; [reflexivity|].
  intros [| | | | | |t2 a2 off2 len2 cap2| | | |]; try (split; [reflexivity|intros j Lj; cbn in Lj; lia]). split.
  - unfold elems. rewrite !firstn_length, !skipn_length, arr_write. destruct (Nat.eqb_spec a2 a) as [->|]; [rewrite upd_length|]; reflexivity.
  - intros j Lj. cbn [slen] in Lj. rewrite !elem_cell by exact Lj. rewrite cell_write by lia. unfold same_place. cbn [place fst snd s]. rewrite (Nat.eqb_sym a2 a), (Nat.eqb_sym (off2 + j)). reflexivity.
Qed.
(** a call that panics has changed nothing, with one pair of arguments *)
Theorem C77_set_refused : forall h t a off len cap key v h', let s := CSlice t a off len cap in CSet s [key; v] h = (None, h') -> h' = h.
Proof. intros h t a off len cap key v h' s. cbn. unfold bind, must. destruct (in_range key len); cbn; [|intros [= <-]; reflexivity]. destruct (assignable v t); cbn; [discriminate|intros [= <-]; reflexivity]. Qed.
(** more pairs are set one after the other, if their number is right (otherwise nothing is done) *)
Theorem C77_set_pairs : forall m k v l h, Nat.odd (length l) = false -> CSet m (k :: v :: l) h = match CSet m [k; v] h with (Some _, h1) => CSet m l h1 | r => r end.
Proof.
  intros m k v l h E. unfold CSet. cbn [length Nat.odd]. change (Nat.odd (S (S (length l)))) with (Nat.odd (length l)). rewrite E. destruct m; try reflexivity; cbn [pairs set_slice set_map].
  - unfold bind, must. cbn. destruct (in_range k len); cbn; [|reflexivity]. destruct (assignable v t); reflexivity.
  - change (Nat.odd 2) with false. cbv iota.
    assert (G : forall X : M unit, bind X (fun _ => set_map k0 v0 m (pairs l)) h = match bind X (fun _ => ret tt) h with (Some _, h1) => set_map k0 v0 m (pairs l) h1 | (None, h1) => (None, h1) end)
      by (intro X; unfold bind; destruct (X h) as ([|], h1); reflexivity).
    exact (G _).
Qed.
Theorem C77_set_odd : forall m l h, Nat.odd (length l) = true -> CSet m l h = (None, h).
Proof. intros m l h E. unfold CSet. rewrite E. reflexivity. Qed.

(** ** sub *)
Lemma bound_fun : forall d x m n, bound d x m -> bound d x n -> m = n.
Proof. intros d x m n [(-> & ->)| ->] [(E & ->)|E]; try discriminate; [reflexivity|]. injection E as E. lia. Qed.
Lemma bound_z : forall d x (o : option Z) , (o = match x with CNil => Some (Z.of_nat d) | CInt z => Some z | _ => None end) -> (exists n, bound d x n /\ o = Some (Z.of_nat n)) \/ ((forall n, ~ bound d x n) /\ (forall z, o = Some z -> z < 0)).
Proof.
  intros d x o ->. destruct x; try (right; split; [intros n [(E & _)|E]; discriminate E|discriminate]); [left; exists d; split; [left; auto|reflexivity]|].
  destruct (Z_lt_le_dec z 0) as [L|L]; [right; split; [intros n [(E & _)|E]; [discriminate E|injection E as E; lia]|intros y [= <-]; exact L]|]. left. exists (Z.to_nat z). rewrite Z2Nat.id by exact L. split; [right|]; rewrite ?Z2Nat.id by exact L; reflexivity.
Qed.
Definition bound_val (d : nat) (x : cv) : option Z := match x with CNil => Some (Z.of_nat d) | CInt z => Some z | _ => None end.
Lemma sub_eq : forall h a i j d, (match a with CSlice _ _ _ len _ => d = len | CStr b => d = length b | _ => False end) ->
  CSub a i j h = match bound_val 0 i, bound_val d j with
  | Some i1, Some j1 =>
      match a with
      | CSlice t x off len cap => if (0 <=? i1) && (i1 <=? j1) && (j1 <=? Z.of_nat cap) then (Some (CSlice t x (off + Z.to_nat i1) (Z.to_nat j1 - Z.to_nat i1) (cap - Z.to_nat i1)), h) else (None, h)
      | CStr b => if (0 <=? i1) && (i1 <=? j1) && (j1 <=? Z.of_nat (length b)) then (Some (CStr (Base.sub b (Z.to_nat i1) (Z.to_nat j1))), h) else (None, h)
      | _ => (None, h)
      end
  | _, _ => (None, h)
  end.
Proof.
  intros h a i j d H. unfold CSub, bind, bound_val. destruct a; try contradiction; subst; destruct i; try reflexivity; destruct j; cbn; try reflexivity;
    match goal with |- context [if ?b then _ else _] => destruct b end; reflexivity.
Qed.
(** the slice starts at the first bound, ends at the second, and shares its storage with the one it is taken from; it can extend to the capacity *)
Theorem C77_sub : forall h t a off len cap i j m n, let s := CSlice t a off len cap in bound 0 i m -> bound len j n -> (m <= n <= cap)%nat ->
  exists s', CSub s i j h = (Some s', h) /\ slen s' = (n - m)%nat /\ scap s' = (cap - m)%nat /\ (forall k, place s' k = place s (m + k)) /\ ((n <= len)%nat -> elems h s' = firstn (n - m) (skipn m (elems h s))).
Proof.
  intros h t a off len cap i j m n s Hi Hj L. rewrite (sub_eq h s i j len eq_refl). assert (Ei : bound_val 0 i = Some (Z.of_nat m)) by (destruct Hi as [(-> & ->)| ->]; reflexivity). assert (Ej : bound_val len j = Some (Z.of_nat n)) by (destruct Hj as [(-> & ->)| ->]; reflexivity).
  rewrite Ei, Ej. cbn [s]. rewrite (proj2 (Z.leb_le 0 _)), (proj2 (Z.leb_le (Z.of_nat m) _)), (proj2 (Z.leb_le (Z.of_nat n) _)) by lia. cbn [andb]. eexists. split; [reflexivity|]. cbn [slen scap place]. rewrite !Nat2Z.id. split; [reflexivity|]. split; [reflexivity|].
  split; [intro k; cbn; f_equal; lia|]. intro Ln. cbn [elems s]. rewrite <- skipn_skipn'. rewrite skipn_firstn_comm, firstn_firstn. f_equal. lia.
Qed.
Theorem C77_sub_refused : forall h t a off len cap i j, let s := CSlice t a off len cap in (forall m n, bound 0 i m -> bound len j n -> (m <= n <= cap)%nat -> False) -> CSub s i j h = (None, h).
Proof.
  intros h t a off len cap i j s H. rewrite (sub_eq h s i j len eq_refl). destruct (bound_z 0 i (bound_val 0 i) eq_refl) as [(m & Hm & ->)|(Nm & Zm)]; [|destruct (bound_val 0 i) as [z|]; [|reflexivity]].
  - destruct (bound_z len j (bound_val len j) eq_refl) as [(n & Hn & ->)|(Nn & Zn)]; [|destruct (bound_val len j) as [z|]; [|reflexivity]]; cbn [s].
    + destruct (Z.leb_spec (Z.of_nat m) (Z.of_nat n)); destruct (Z.leb_spec (Z.of_nat n) (Z.of_nat cap)); rewrite ?andb_false_r; try reflexivity. exfalso. apply (H m n Hm Hn). lia.
    + specialize (Zn z eq_refl). destruct (Z.leb_spec (Z.of_nat m) z); [lia|]. rewrite andb_false_r. reflexivity.
  - specialize (Zm z eq_refl). destruct (bound_val len j); [|reflexivity]. cbn [s]. destruct (Z.leb_spec 0 z); [lia|]. reflexivity.
Qed.
Theorem C77_sub_string : forall h b i j, (forall m n, bound 0 i m -> bound (length b) j n -> (m <= n <= length b)%nat -> CSub (CStr b) i j h = (Some (CStr (firstn (n - m) (skipn m b))), h)) /\
  ((forall m n, bound 0 i m -> bound (length b) j n -> (m <= n <= length b)%nat -> False) -> CSub (CStr b) i j h = (None, h)).
Proof.
  intros h b i j. rewrite (sub_eq h (CStr b) i j (length b) eq_refl). split.
  - intros m n Hi Hj L. assert (Ei : bound_val 0 i = Some (Z.of_nat m)) by (destruct Hi as [(-> & ->)| ->]; reflexivity). assert (Ej : bound_val (length b) j = Some (Z.of_nat n)) by (destruct Hj as [(-> & ->)| ->]; reflexivity).
    rewrite Ei, Ej. rewrite (proj2 (Z.leb_le 0 _)), (proj2 (Z.leb_le (Z.of_nat m) _)), (proj2 (Z.leb_le (Z.of_nat n) _)) by lia. cbn [andb]. rewrite !Nat2Z.id. reflexivity.
  - intro H. destruct (bound_z 0 i (bound_val 0 i) eq_refl) as [(m & Hm & ->)|(Nm & Zm)]; [|destruct (bound_val 0 i) as [z|]; [|reflexivity]].
    + destruct (bound_z (length b) j (bound_val (length b) j) eq_refl) as [(n & Hn & ->)|(Nn & Zn)]; [|destruct (bound_val (length b) j) as [z|]; [|reflexivity]].
      * destruct (Z.leb_spec (Z.of_nat m) (Z.of_nat n)); destruct (Z.leb_spec (Z.of_nat n) (Z.of_nat (length b))); rewrite ?andb_false_r; try reflexivity. exfalso. apply (H m n Hm Hn). lia.
      * specialize (Zn z eq_refl). destruct (Z.leb_spec (Z.of_nat m) z); [lia|]. rewrite andb_false_r. reflexivity.
    + specialize (Zm z eq_refl). destruct (bound_val (length b) j); [|reflexivity]. destruct (Z.leb_spec 0 z); [lia|]. reflexivity.
Qed.

(** ** append *)
Lemma arr_len_write : forall a i v h a', length (arr (snd (write a i v h)) a') = length (arr h a').
Proof. intros. rewrite arr_write. destruct (Nat.eqb_spec a' a) as [->|]; [rewrite upd_length|]; reflexivity. Qed.
Lemma write_all_ok : forall put l xs a i h, Forall2 (fun v x => put v = Some x) l xs -> (i + length l <= length (arr h a))%nat -> exists h', write_all put a i l h = (Some tt, h') /\
  maps h' = maps h /\ length (arrs h') = length (arrs h) /\ forall a', length (arr h' a') = length (arr h a') /\ forall j, cell h' a' j = if ((a' =? a) && (i <=? j) && (j <? i + length l))%nat then nth (j - i) xs CNil else cell h a' j.
Proof.
  intros put l xs a i h F. revert i h. induction F as [|v x l xs Hv F IH]; intros i h L; cbn [length] in *.
  - exists h. split; [reflexivity|]. split; [reflexivity|]. split; [reflexivity|]. intro a'. split; [reflexivity|]. intro j. destruct (a' =? a)%nat; [|reflexivity]. cbn [andb]. destruct (Nat.leb_spec i j), (Nat.ltb_spec j (i + 0)); try reflexivity; lia.
  - cbn [write_all]. rewrite Hv. unfold bind, must, ret. set (h1 := snd (write a i x h)). destruct (IH (S i) h1) as (h' & E & M & A & C); [unfold h1; rewrite arr_len_write; lia|]. exists h'. split; [exact E|]. split; [rewrite M; reflexivity|].
    split; [rewrite A; unfold h1; cbn; apply upd_length|]. intro a'. destruct (C a') as (C1 & C2). split; [rewrite C1; apply arr_len_write|]. intro j. rewrite C2. unfold h1. rewrite cell_write by lia.
    destruct (Nat.eqb_spec a' a) as [->|N]; [|reflexivity]. cbn [andb]. destruct (Nat.eqb_spec j i) as [->|N].
    + destruct (Nat.leb_spec (S i) i); [lia|]. cbn [andb]. rewrite Nat.leb_refl, Nat.sub_diag. destruct (Nat.ltb_spec i (i + S (length l))); [reflexivity|lia].
    + destruct (Nat.leb_spec (S i) j), (Nat.leb_spec i j); try lia; cbn [andb]; [|reflexivity]. replace (i + S (length l))%nat with (S i + length l)%nat by lia. destruct (Nat.ltb_spec j (S i + length l)); [|reflexivity]. replace (j - i)%nat with (S (j - S i)) by lia. reflexivity.
Qed.
(** [h'] has what [h] has, but for the places from [lo] below [hi] of array [a] *)
Definition fr (a lo hi : nat) (h h' : heap) : Prop := maps h' = maps h /\ (length (arrs h) <= length (arrs h'))%nat /\
  forall a', (a' < length (arrs h))%nat -> length (arr h' a') = length (arr h a') /\ forall j, ~ (a' = a /\ (lo <= j < hi)%nat) -> cell h' a' j = cell h a' j.
Lemma fr_refl : forall a lo hi h, fr a lo hi h h.
Proof. intros. split; [reflexivity|]. split; [lia|]. intros. split; auto. Qed.
Lemma fr_trans : forall a lo hi h h1 a' lo' hi' h2, fr a lo hi h h1 -> fr a' lo' hi' h1 h2 -> ((length (arrs h) <= a')%nat \/ (a' = a /\ (lo <= lo')%nat /\ (hi' <= hi)%nat)) -> fr a lo hi h h2.
Proof.
  intros a lo hi h h1 a' lo' hi' h2 (M1 & L1 & F1) (M2 & L2 & F2) D. split; [congruence|]. split; [lia|]. intros x Lx. destruct (F1 x Lx) as (A1 & C1). destruct (F2 x ltac:(lia)) as (A2 & C2). split; [congruence|].
  intros j N. rewrite C2; [apply C1; exact N|]. intros (-> & Lj). apply N. destruct D as [D|(-> & D1 & D2)]; [lia|]. split; [reflexivity|lia].
Qed.
Lemma write_all_fr : forall put l a i h, fr a i (i + length l) h (snd (write_all put a i l h)) /\ (fst (write_all put a i l h) = None <-> exists v, In v l /\ put v = None).
Proof.
  intros put l a. induction l as [|v l IH]; intros i h; cbn [write_all length].
  - split; [apply fr_refl|]. split; [discriminate|intros (v & [] & _)].
  - destruct (put v) as [x|] eqn:E; unfold bind at 1 3, must.
    + unfold ret at 1 2. destruct (IH (S i) (snd (write a i x h))) as (F & R). split.
      * apply (fr_trans a i (i + S (length l)) h (snd (write a i x h)) a (S i) (S i + length l)); [|exact F|right; split; [reflexivity|lia]].
        split; [reflexivity|]. split; [cbn; rewrite upd_length; lia|]. intros a' La. split; [apply arr_len_write|]. intros j N. unfold cell. rewrite arr_write. destruct (Nat.eqb_spec a' a) as [->|]; [|reflexivity]. rewrite nth_upd.
        destruct (Nat.eqb_spec j i) as [->|]; [|reflexivity]. exfalso. apply N. split; [reflexivity|lia].
      * refine (iff_trans R _). split; [intros (w & W1 & W2); exists w; split; [right; exact W1|exact W2]|]. intros (w & [->|W1] & W2); [congruence|exists w; auto].
    + split; [apply fr_refl|]. split; [intros _; exists v; split; [left; reflexivity|exact E]|reflexivity].
Qed.
Definition fits (h : heap) (a off len cap : nat) : Prop := (len <= cap)%nat /\ ((0 < cap)%nat -> (a < length (arrs h))%nat /\ (off + cap <= length (arr h a))%nat).
Lemma fits_elems : forall h a off len cap, fits h a off len cap -> length (firstn len (skipn off (arr h a))) = len.
Proof. intros h a off len cap (A & B). rewrite firstn_length, skipn_length. destruct (Nat.eq_dec len 0) as [->|N]; [reflexivity|]. destruct B as (_ & B); lia. Qed.
Lemma arr_new : forall h l m a, arr (mkHeap (arrs h ++ [l]) m) a = if (a =? length (arrs h))%nat then l else arr h a.
Proof.
  intros h l m a. unfold arr. cbn [arrs]. destruct (Nat.eqb_spec a (length (arrs h))) as [->|N]; [rewrite app_nth2, Nat.sub_diag by lia; reflexivity|].
  destruct (Nat.lt_ge_cases a (length (arrs h))); [apply app_nth1; assumption|]. rewrite !nth_overflow; [reflexivity|lia|rewrite app_length; cbn; lia].
Qed.
(** growing: the same places, or new ones with the same elements *)
Lemma grow_ok : forall g t a off len cap n h, fits h a off len cap -> exists b o c h', grow g t a off len cap n h = (Some (b, o, c), h') /\ fits h' b o len c /\ (len + n <= c)%nat /\
  (forall j, (j < len)%nat -> cell h' b (o + j) = cell h a (off + j)) /\ (forall lo hi x, fr x lo hi h h') /\
  (((len + n <= cap)%nat /\ b = a /\ o = off /\ c = cap /\ h' = h) \/ ((cap < len + n)%nat /\ b = length (arrs h))).
Proof.
  intros g t a off len cap n h F. unfold grow. destruct (Nat.leb_spec (len + n) cap) as [L|L].
  - exists a, off, cap, h. split; [reflexivity|]. split; [exact F|]. split; [exact L|]. split; [auto|]. split; [intros; apply fr_refl|left; auto].
  - set (c := Nat.max _ _). set (l := firstn len (skipn off (arr h a)) ++ repeat (zero t) (c - len)). pose proof (fits_elems _ _ _ _ _ F) as E. assert (Ll : length l = c) by (unfold l; rewrite app_length, E, repeat_length; lia).
    exists (length (arrs h)), O, c, (mkHeap (arrs h ++ [l]) (maps h)). split; [reflexivity|]. split; [|split; [lia|split; [|split; [|right; auto]]]].
    + split; [lia|]. intros _. rewrite arr_new, Nat.eqb_refl. cbn [arrs]. rewrite app_length. cbn. lia.
    + intros j Lj. unfold cell. rewrite arr_new, Nat.eqb_refl. unfold l. rewrite app_nth1 by lia. rewrite nth_firstn by lia. rewrite nth_skipn. reflexivity.
    + intros lo hi x. split; [reflexivity|]. split; [cbn; rewrite app_length; lia|]. intros a' La. unfold cell. rewrite arr_new. destruct (Nat.eqb_spec a' (length (arrs h))); [lia|]. auto.
Qed.
(** what an append leaves: [w] bounds the part of the spare capacity that was written *)
Definition appended (h : heap) (a off len cap : nat) (xs : list cv) (w : nat) (b o c : nat) (h' : heap) : Prop :=
  fits h' b o (len + length xs) c /\ (forall j, (j < len)%nat -> cell h' b (o + j) = cell h a (off + j)) /\ (forall k, (k < length xs)%nat -> cell h' b (o + (len + k)) = nth k xs CNil) /\
  fr a (off + len) (off + w) h h' /\ (forall k, (len + k < w)%nat -> cell h' a (off + (len + k)) = nth k xs CNil) /\
  (((len + length xs <= cap)%nat /\ b = a /\ o = off /\ c = cap) \/ ((cap < len + length xs)%nat /\ (length (arrs h) <= b)%nat)).
Lemma append_with_ok : forall g put t a off len cap l xs h, fits h a off len cap -> Forall2 (fun v x => put v = Some x) l xs ->
  exists b o c h', append_with g put t a off len cap l h = (Some (CSlice t b o (len + length l) c), h') /\ appended h a off len cap xs (if (len + length l <=? cap)%nat then len + length l else len) b o c h'.
Proof.
  intros g put t a off len cap l xs h F P. pose proof (Forall2_len _ _ _ _ _ P) as Lx. unfold append_with. destruct (grow_ok g t a off len cap (length l) h F) as (b & o & c & h1 & E & F1 & L1 & C1 & R1 & D1).
  unfold bind at 1. rewrite E. assert (B : (o + len + length l <= length (arr h1 b))%nat \/ length l = 0%nat) by (destruct F1 as (X & Y); destruct (length l) eqn:El; [auto|left; destruct Y as (_ & Y); lia]).
  assert (W : exists h', write_all put b (o + len) l h1 = (Some tt, h') /\ maps h' = maps h1 /\ length (arrs h') = length (arrs h1) /\ forall a', length (arr h' a') = length (arr h1 a') /\ forall j, cell h' a' j = if ((a' =? b) && (o + len <=? j) && (j <? o + len + length l))%nat then nth (j - (o + len)) xs CNil else cell h1 a' j).
  { destruct B as [B|B]; [apply write_all_ok; assumption|]. destruct l; [|discriminate B]. exists h1. split; [reflexivity|]. split; [reflexivity|]. split; [reflexivity|]. intro a'. split; [reflexivity|]. intro j.
    destruct (a' =? b)%nat; [|reflexivity]. cbn [andb length]. destruct (Nat.leb_spec (o + len) j), (Nat.ltb_spec j (o + len + 0)); try reflexivity; lia. }
  destruct W as (h' & E2 & M2 & A2 & C2). exists b, o, c, h'. unfold bind. rewrite E2. split; [reflexivity|]. unfold appended. rewrite <- Lx.
  assert (WR : fr b (o + len) (o + len + length l) h1 h').
  { split; [exact M2|]. split; [lia|]. intros a' La. destruct (C2 a') as (X & Y). split; [exact X|]. intros j N. rewrite Y. destruct (Nat.eqb_spec a' b) as [->|]; [|reflexivity]. cbn [andb]. destruct (Nat.leb_spec (o + len) j), (Nat.ltb_spec j (o + len + length l)); try reflexivity. exfalso. apply N. auto. }
  repeat split.
  - exact L1.
  - rewrite A2. destruct F1 as (_ & F1). apply F1; assumption.
  - destruct (C2 b) as (-> & _). destruct F1 as (_ & F1). apply F1; assumption.
  - intros j Lj. destruct (C2 b) as (_ & ->). destruct (Nat.leb_spec (o + len) (o + j)); [lia|]. rewrite andb_false_r. cbn [andb]. apply C1. exact Lj.
  - intros k Lk. destruct (C2 b) as (_ & ->). rewrite Nat.eqb_refl. destruct (Nat.leb_spec (o + len) (o + (len + k))), (Nat.ltb_spec (o + (len + k)) (o + len + length l)); try lia. cbn [andb]. f_equal. lia.
  - rewrite M2. apply (R1 O O O).
  - rewrite A2. apply (R1 O O O).
  - destruct (C2 a') as (-> & _). apply (R1 O O O). assumption.
  - intros j N. assert (X : cell h1 a' j = cell h a' j) by (apply (R1 O O O); [assumption|lia]). rewrite <- X. apply WR; [destruct (R1 O O O) as (_ & R & _); lia|]. intros (-> & Lj). apply N.
    destruct D1 as [(L & -> & -> & -> & ->)|(L & ->)]; [|lia]. rewrite (proj2 (Nat.leb_le _ _) L). split; [reflexivity|lia].
  - intros k. destruct D1 as [(L & -> & -> & -> & ->)|(L & ->)].
    + rewrite (proj2 (Nat.leb_le _ _) L). intro Lk. destruct (C2 a) as (_ & ->). rewrite Nat.eqb_refl. destruct (Nat.leb_spec (off + len) (off + (len + k))), (Nat.ltb_spec (off + (len + k)) (off + len + length l)); try lia. cbn [andb]. f_equal. lia.
    + destruct (Nat.leb_spec (len + length l) cap); lia.
  - destruct D1 as [(L & -> & -> & -> & ->)|(L & ->)]; [left; auto|right; auto].
Qed.
Lemma write_fr : forall a i v h lo hi, (lo <= i < hi)%nat -> fr a lo hi h (snd (write a i v h)).
Proof.
  intros a i v h lo hi L. split; [reflexivity|]. split; [cbn; rewrite upd_length; lia|]. intros a' La. split; [apply arr_len_write|]. intros j N. unfold cell. rewrite arr_write. destruct (Nat.eqb_spec a' a) as [->|]; [|reflexivity]. rewrite nth_upd.
  destruct (Nat.eqb_spec j i) as [->|]; [|reflexivity]. exfalso. apply N. auto.
Qed.
Lemma write_fits : forall h a off len cap i v b, fits h b off len cap -> fits (snd (write a i v h)) b off len cap.
Proof. intros h a off len cap i v b (A & B). split; [exact A|]. intro H. destruct (B H). rewrite arr_len_write. cbn. rewrite upd_length. auto. Qed.
Lemma appendFloat_ok : forall g l xs a off len cap h, fits h a off len cap -> Forall2 (fun v x => float_of v = Some x) l xs ->
  exists b o c h', appendFloat g a off len cap l h = (Some (CSlice TyFloat b o (len + length l) c), h') /\ appended h a off len cap xs (Nat.min cap (len + length l)) b o c h'.
Proof.
  intros g l xs a off len cap h F P. revert a off len cap h F. induction P as [|v x l xs Hv P IH]; intros a off len cap h F; cbn [appendFloat length].
  - exists a, off, cap, h. rewrite Nat.add_0_r. split; [reflexivity|]. unfold appended. cbn [length]. rewrite Nat.add_0_r. destruct F as (F1 & F2). repeat split; try assumption; try (apply F2; assumption); try lia; auto.
  - pose proof (Forall2_len _ _ _ _ _ P) as Lx. destruct (grow_ok g TyFloat a off len cap 1 h F) as (b & o & c & h1 & E & F1 & L1 & C1 & R1 & D1). unfold bind at 1. rewrite Hv. cbn [must ret]. unfold bind at 1. rewrite E. unfold bind at 1.
    set (h2 := snd (write b (o + len) x h1)). change (write b (o + len) x h1) with (Some tt, h2). cbv iota beta.
    assert (B1 : (o + len < length (arr h1 b))%nat) by (destruct F1 as (X & Y); destruct Y as (_ & Y); lia).
    assert (F2 : fits h2 b o (S len) c) by (destruct (write_fits h1 b o len c (o + len) x b F1) as (X & Y); split; [lia|exact Y]).
    assert (C2 : forall a' j, cell h2 a' j = if ((a' =? b) && (j =? o + len))%nat then x else cell h1 a' j) by (intros; apply cell_write; exact B1).
    destruct (IH b o (S len) c h2 F2) as (b' & o' & c' & h' & E' & (G1 & G2 & G3 & G4 & G5 & G6)). exists b', o', c', h'. replace (len + S (length l))%nat with (S len + length l)%nat by lia. split; [exact E'|].
    assert (T : forall lo hi, (lo <= o + len < hi)%nat -> fr b lo hi h1 h2) by (intros; apply write_fr; assumption).
    assert (H2 : (length (arrs h) <= length (arrs h2))%nat) by (unfold h2; cbn; rewrite upd_length; apply (R1 O O O)).
    unfold appended. cbn [length]. replace (len + S (length xs))%nat with (S len + length xs)%nat by lia. split; [exact G1|]. split; [|split; [|split; [|split]]].
    + intros j Lj. rewrite G2 by lia. rewrite C2. destruct (Nat.eqb_spec (o + j) (o + len)); [lia|]. rewrite andb_false_r. apply C1. exact Lj.
    + intros [|k] Lk; cbn [nth].
      * rewrite Nat.add_0_r, G2 by lia. rewrite C2, !Nat.eqb_refl. reflexivity.
      * replace (len + S k)%nat with (S len + k)%nat by lia. apply G3. lia.
    + destruct D1 as [(L & -> & -> & -> & ->)|(L & ->)].
      * apply (fr_trans _ _ _ h h2 a (off + S len) (off + Nat.min cap (S len + length l))); [apply T; lia|exact G4|right; split; [reflexivity|lia]].
      * apply (fr_trans _ _ _ h h2 (length (arrs h)) (o + S len) (o + Nat.min c (S len + length l))); [|exact G4|left; lia]. apply (fr_trans _ _ _ h h1 (length (arrs h)) (o + len) (S (o + len))); [apply R1|apply T; lia|left; lia].
    + destruct D1 as [(L & -> & -> & -> & ->)|(L & ->)]; [|lia]. intros [|k] Lk; cbn [nth].
      * rewrite Nat.add_0_r. destruct G4 as (_ & _ & G4). destruct (G4 a) as (_ & G7); [unfold h2; cbn; rewrite upd_length; apply F; lia|]. rewrite G7 by lia. rewrite C2, !Nat.eqb_refl. reflexivity.
      * replace (len + S k)%nat with (S len + k)%nat by lia. apply G5. lia.
    + destruct D1 as [(L & -> & -> & -> & ->)|(L & ->)].
      * destruct G6 as [(X & -> & -> & ->)|(X & Y)]; [left; auto|right; split; [exact X|lia]].
      * right. split; [lia|]. destruct G6 as [(X & -> & -> & ->)|(X & Y)]; lia.
Qed.
Lemma append_ok : forall g t a off len cap l xs h, fits h a off len cap -> Forall2 (fun v x => stored t v = Some x) l xs ->
  exists b o c h', CAppend g (CSlice t a off len cap) l h = (Some (CSlice t b o (len + length l) c), h') /\ appended h a off len cap xs (written t len cap (length l)) b o c h'.
Proof.
  intros g t a off len cap l xs h F P. assert (D : t = TyFloat \/ t <> TyFloat) by (destruct t; auto; right; discriminate). destruct D as [->|D].
  - replace (written TyFloat len cap (length l)) with (Nat.min cap (len + length l)) by (unfold written; destruct (Nat.leb_spec (len + length l) cap); lia). apply appendFloat_ok; [exact F|].
    revert P. apply Forall2_impl'. intros v x E. rewrite float_of_stored. exact E.
  - rewrite append_put by exact D. replace (written t len cap (length l)) with (if (len + length l <=? cap)%nat then len + length l else len)%nat by (unfold written; destruct t; try reflexivity; congruence). apply append_with_ok; [exact F|].
    revert P. apply Forall2_impl'. intros v x E. rewrite put_stored; assumption.
Qed.
(** the values are stored after the elements: in the same array if its capacity allows, and then seen by the slices that have these places; in a new one otherwise *)
Theorem C77_append : forall g h t a off len cap l xs, let s := CSlice t a off len cap in sound h [s] -> Forall2 (fun v x => stored t v = Some x) l xs ->
  exists s' h', CAppend g s l h = (Some s', h') /\ elems h' s' = elems h s ++ xs /\ slen s' = (len + length l)%nat /\ dyn s' = dyn s /\ maps h' = maps h /\
  ((len + length l <= cap)%nat -> scap s' = cap /\ forall k, place s' k = place s k) /\ ((cap < len + length l)%nat -> fresh h s' /\ (len + length l <= scap s')%nat) /\
  forall s2, sound h [s2] -> forall j, (j < slen s2)%nat ->
    (forall k, place s2 j = place s (len + k) -> (len + k < written t len cap (length l))%nat -> elem h' s2 j = nth k xs CNil) /\
    ((forall k, place s2 j = place s (len + k) -> (written t len cap (length l) <= len + k)%nat) -> elem h' s2 j = elem h s2 j).
Proof.
  intros g h t a off len cap l xs s S P. destruct (append_ok g t a off len cap l xs h (bounds _ _ _ _ _ _ S) P) as (b & o & c & h' & E & (G1 & G2 & G3 & G4 & G5 & G6)). pose proof (Forall2_len _ _ _ _ _ P) as Lx.
  exists (CSlice t b o (len + length l) c), h'. split; [exact E|]. split; [|split; [reflexivity|split; [reflexivity|split; [apply G4|split; [|split]]]]].
  - pose proof (fits_elems _ _ _ _ _ G1) as L1. pose proof (fits_elems _ _ _ _ _ (bounds _ _ _ _ _ _ S)) as L2. rewrite Lx. apply (nth_ext _ _ CNil CNil); [rewrite app_length; cbn [elems]; unfold s, elems; lia|].
    cbn [elems]. rewrite L1. intros n Ln. rewrite nth_firstn, nth_skipn by exact Ln. change (nth (o + n) (arr h' b) CNil) with (cell h' b (o + n)). destruct (Nat.lt_ge_cases n len) as [N|N].
    + rewrite G2 by exact N. rewrite app_nth1 by (unfold s, elems; lia). unfold s, elems. rewrite nth_firstn, nth_skipn by exact N. reflexivity.
    + rewrite app_nth2 by (unfold s, elems; lia). replace (o + n)%nat with (o + (len + (n - len)))%nat by lia. rewrite G3 by lia. f_equal. unfold s, elems. lia.
  - intro L. destruct G6 as [(_ & -> & -> & ->)|(N & _)]; [|lia]. split; reflexivity.
  - intro L. destruct G6 as [(N & _)|(_ & N)]; [lia|]. split; [exact N|]. cbn. destruct G1. lia.
  - intros [| | | | | |t2 a2 off2 len2 cap2| | | |] S2 j Lj; cbn [slen] in Lj; try lia. destruct (bounds _ _ _ _ _ _ S2) as (B1 & B2). destruct B2 as (B2 & B3); [lia|]. rewrite !elem_cell by exact Lj. cbn [place s]. split.
    + intros k [= -> Ek] Lk. rewrite Ek. apply G5. exact Lk.
    + intro N. destruct G4 as (_ & _ & G4). apply G4; [exact B2|]. intros (-> & L1 & L2). specialize (N (off2 + j - (off + len))%nat). assert (X : (a, (off2 + j)%nat) = (a, (off + (len + (off2 + j - (off + len))))%nat)) by (f_equal; lia). specialize (N X). lia.
Qed.
(** with no spare capacity nothing else changes *)
Theorem C77_append_full : forall g h t a off len l xs, let s := CSlice t a off len len in sound h [s] -> Forall2 (fun v x => stored t v = Some x) l xs ->
  exists s' h', CAppend g s l h = (Some s', h') /\ elems h' s' = elems h s ++ xs /\ (l <> [] -> fresh h s') /\ maps h' = maps h /\ forall s2, sound h [s2] -> forall j, (j < slen s2)%nat -> elem h' s2 j = elem h s2 j.
Proof.
  intros g h t a off len l xs s S P. destruct (C77_append g h t a off len len l xs S P) as (s' & h' & E & A & _ & _ & M & _ & B & C). exists s', h'. split; [exact E|]. split; [exact A|]. split; [|split; [exact M|]].
  - intro N. apply B. destruct l; [congruence|]. cbn. lia.
  - intros s2 S2 j Lj. apply (C s2 S2 j Lj). intros k _. unfold written. destruct (Nat.leb_spec (len + length l) len); [|destruct t]; lia.
Qed.
(** a value that cannot be stored: it panics, having changed at most what follows the slice in its array *)
Lemma append_fr : forall g t a off len cap l h, fits h a off len cap -> fr a (off + len) (off + cap) h (snd (CAppend g (CSlice t a off len cap) l h)) /\ (fst (CAppend g (CSlice t a off len cap) l h) = None <-> exists v, In v l /\ stored t v = None).
Proof.
  intros g t a off len cap l h F. assert (D : t = TyFloat \/ t <> TyFloat) by (destruct t; auto; right; discriminate). destruct D as [->|D].
  - cbn [CAppend]. revert a off len cap h F. induction l as [|v l IH]; intros a off len cap h F; cbn [appendFloat].
    + split; [apply fr_refl|]. split; [discriminate|intros (v & [] & _)].
    + destruct (stored TyFloat v) as [x|] eqn:Ev.
      * destruct (grow_ok g TyFloat a off len cap 1 h F) as (b & o & c & h1 & E & F1 & L1 & C1 & R1 & D1).
        set (h2 := snd (write b (o + len) x h1)). assert (Eq : appendFloat g a off len cap (v :: l) h = appendFloat g b o (S len) c l h2) by (cbn [appendFloat]; rewrite float_of_stored, Ev; unfold bind; cbn [must]; unfold ret; rewrite E; reflexivity). cbn [appendFloat] in Eq. rewrite Eq.
        assert (F2 : fits h2 b o (S len) c) by (destruct (write_fits h1 b o len c (o + len) x b F1) as (X & Y); split; [lia|exact Y]). destruct (IH b o (S len) c h2 F2) as (G & R). split.
        -- assert (T : forall lo hi, (lo <= o + len < hi)%nat -> fr b lo hi h1 h2) by (intros; apply write_fr; assumption). destruct D1 as [(L & -> & -> & -> & ->)|(L & ->)].
           ++ apply (fr_trans _ _ _ h h2 a (off + S len) (off + cap)); [apply T; lia|exact G|right; split; [reflexivity|lia]].
           ++ apply (fr_trans _ _ _ h h2 (length (arrs h)) (o + S len) (o + c)); [|exact G|left; lia]. apply (fr_trans _ _ _ h h1 (length (arrs h)) (o + len) (S (o + len))); [apply R1|apply T; lia|left; lia].
        -- refine (iff_trans R _). split; [intros (w & W1 & W2); exists w; split; [right; exact W1|exact W2]|]. intros (w & [->|W1] & W2); [congruence|exists w; auto].
      * rewrite float_of_stored, Ev. split; [apply fr_refl|]. split; [intros _; exists v; split; [left; reflexivity|exact Ev]|reflexivity].
  - rewrite append_put by exact D. unfold append_with. destruct (grow_ok g t a off len cap (length l) h F) as (b & o & c & h1 & E & F1 & L1 & C1 & R1 & D1). unfold bind at 1 3. rewrite E. cbv iota beta.
    destruct (write_all_fr (match t with TyVar => Some | _ => or_zero t end) l b (o + len) h1) as (G & R). split.
    + assert (X : fr a (off + len) (off + cap) h (snd (write_all (match t with TyVar => Some | _ => or_zero t end) b (o + len) l h1))).
      { destruct D1 as [(L & -> & -> & -> & ->)|(L & ->)]; [apply (fr_trans _ _ _ h h a (off + len) (off + len + length l)); [apply fr_refl|exact G|right; split; [reflexivity|lia]]|].
        apply (fr_trans _ _ _ h h1 (length (arrs h)) (o + len) (o + len + length l)); [apply R1|exact G|left; lia]. }
      unfold bind. destruct (write_all _ b (o + len) l h1) as ([|], h3); exact X.
    + transitivity (fst (write_all (match t with TyVar => Some | _ => or_zero t end) b (o + len) l h1) = None); [unfold bind; destruct (write_all _ b (o + len) l h1) as ([|], h3); cbn; split; congruence|].
      refine (iff_trans R _). split; intros (v & V1 & V2); exists v; (split; [exact V1|]); [rewrite <- put_stored|rewrite put_stored]; assumption.
Qed.
Theorem C77_append_refused : forall g h t a off len cap l, let s := CSlice t a off len cap in sound h [s] ->
  (fst (CAppend g s l h) = None <-> exists v, In v l /\ stored t v = None) /\
  forall s2, sound h [s2] -> forall j, (j < slen s2)%nat -> (forall k, (len + k < cap)%nat -> place s2 j <> place s (len + k)) -> elem (snd (CAppend g s l h)) s2 j = elem h s2 j.
Proof.
  intros g h t a off len cap l s S. destruct (append_fr g t a off len cap l h (bounds _ _ _ _ _ _ S)) as (G & R). split; [exact R|].
  intros [| | | | | |t2 a2 off2 len2 cap2| | | |] S2 j Lj N; cbn [slen] in Lj; try lia. destruct (bounds _ _ _ _ _ _ S2) as (B1 & B2). destruct B2 as (B2 & B3); [lia|]. rewrite !elem_cell by exact Lj. destruct G as (_ & _ & G). apply G; [exact B2|].
  intros (-> & L1 & L2). apply (N (off2 + j - (off + len))%nat); [lia|]. cbn. f_equal. lia.
Qed.
Theorem C77_append_kind : forall g h a l, (forall t x off len cap, a <> CSlice t x off len cap) -> CAppend g a l h = (None, h).
Proof. intros g h a l N. destruct a; try reflexivity. exfalso. eapply N. reflexivity. Qed.

(** ** slice *)
Lemma find_names : forall n t, Compiler.find n builtinTypes = Some t <-> In (n, t) builtinTypes.
Proof.
  assert (G : forall (l : list (bytes * ty)) n t, NoDup (map fst l) -> (Compiler.find n l = Some t <-> In (n, t) l)).
  { induction l as [|(k, v) l IH]; intros n t D; cbn; [split; [discriminate|contradiction]|]. inversion D as [|? ? D1 D2]; subst. cbn in D1. destruct (beq n k) eqn:E.
    - apply beq_eq in E. subst. split; [intros [= <-]; auto|]. intros [[= ->]|H]; [reflexivity|]. exfalso. apply D1. apply in_map_iff. exists (k, t). auto.
    - rewrite IH by exact D2. split; [auto|]. intros [[= -> ->]|H]; [rewrite beq_refl in E; discriminate E|exact H]. }
  intros n t. apply G. cbn. repeat (constructor; [cbn; intuition discriminate|]). constructor.
Qed.
Lemma Reflect_iff : forall typ h, snd (Reflect typ h) = h /\ forall t, fst (Reflect typ h) = Some t <-> names typ t.
Proof.
  intros typ h. unfold names. destruct typ; cbn [Reflect]; try (split; [reflexivity|]; intro u; split; [discriminate|intros [H|(n & H & _)]; discriminate H]).
  - unfold must. destruct (Compiler.find b builtinTypes) as [u|] eqn:E; (split; [reflexivity|]); intro w; cbn; split.
    + intros [= <-]. right. exists b. split; [reflexivity|]. apply find_names. exact E.
    + intros [H|(n & [= <-] & H)]; [discriminate H|]. apply find_names in H. congruence.
    + discriminate.
    + intros [H|(n & [= <-] & H)]; [discriminate H|]. apply find_names in H. congruence.
  - split; [reflexivity|]. intro u. split; [intros [= <-]; auto|]. intros [[= <-]|(n & H & _)]; [reflexivity|discriminate H].
Qed.
Lemma fr_others : forall a lo hi h h', (hi <= lo)%nat -> fr a lo hi h h' -> others h h'.
Proof.
  intros a lo hi h h' L (M & _ & F). split; [exact M|]. intros [| | | | | |t2 a2 off2 len2 cap2| | | |] S; try reflexivity. destruct (bounds _ _ _ _ _ _ S) as (B1 & B2). cbn [elems]. destruct (Nat.eq_dec len2 0) as [->|N]; [reflexivity|].
  destruct B2 as (B2 & B3); [lia|]. do 2 f_equal. destruct (F a2 B2) as (X & Y). apply (nth_ext _ _ CNil CNil X). intros n _. apply Y. lia.
Qed.
Lemma new_others : forall h l, others h (mkHeap (arrs h ++ [l]) (maps h)).
Proof.
  intros h l. apply (fr_others O O O); [lia|]. split; [reflexivity|]. split; [cbn; rewrite app_length; lia|]. intros a' La. unfold cell. rewrite arr_new. destruct (Nat.eqb_spec a' (length (arrs h))); [lia|]. auto.
Qed.
Lemma sizes_iff : forall args (h : heap), (exists n c, sizes args n c /\ match args with [] => ret (0, 0) | [n] => z <-- as_int n ;; ret (z, z) | n :: c :: _ => z <-- as_int n ;; y <-- as_int c ;; ret (z, y) end h = (Some (n, c), h)) \/
  ((forall n c, ~ sizes args n c) /\ match args with [] => ret (0, 0) | [n] => z <-- as_int n ;; ret (z, z) | n :: c :: _ => z <-- as_int n ;; y <-- as_int c ;; ret (z, y) end h = (None, h)).
Proof.
  intros [|n [|c l]] h; [left; exists 0, 0; split; [constructor|reflexivity]|..].
  - destruct n; try (right; split; [intros ? ? H; inversion H|reflexivity]). left. exists z, z. split; [constructor|reflexivity].
  - destruct n; try (right; split; [intros ? ? H; inversion H|reflexivity]). destruct c; try (right; split; [intros ? ? H; inversion H|reflexivity]). left. exists z, z0. split; [constructor|reflexivity].
Qed.
Lemma sizes_fun : forall l n c n' c', sizes l n c -> sizes l n' c' -> n = n' /\ c = c'.
Proof. intros l n c n' c' H1 H2. inversion H1; subst; inversion H2; subst; auto. Qed.
(** The zero values are those of Go: numbers 0, false, the empty string, and nil for variables, slices, maps and pointers. *)
Inductive zero_value : ty -> cv -> Prop :=
  | zv_int : zero_value TyInt (CInt 0) | zv_bool : zero_value TyBool (CBool false) | zv_float : zero_value TyFloat (CFloat (S754_zero false))
  | zv_string : zero_value TyString (CStr []) | zv_byte : zero_value TyByte (CByte 0) | zv_var : zero_value TyVar CNil
  | zv_slice : forall t, zero_value (TySlice t) (CSlice t 0 0 0 0)
  | zv_map : forall k v, zero_value (TyMap k v) (CMap k v None)
  | zv_ref : forall n, zero_value (TyRef n) (CRef n 0).
Theorem C77_zero : forall t v, zero_value t v <-> v = zero t.
Proof. intros t v. split; [intros H; destruct H; reflexivity|intros ->; destruct t; constructor]. Qed.
Theorem C77_slice : forall h typ args t n c, names typ t -> sizes args n c -> 0 <= n <= c ->
  exists s h', CMkSlice typ args h = (Some s, h') /\ dyn s = Some (TySlice t) /\ elems h' s = repeat (zero t) (Z.to_nat n) /\ slen s = Z.to_nat n /\ scap s = Z.to_nat c /\ fresh h s /\ others h h'.
Proof.
  intros h typ args t n c Nt Sz L. unfold CMkSlice. unfold bind at 1. destruct (sizes_iff args h) as [(n' & c' & Sz' & ->)|(N & _)]; [|exfalso; exact (N _ _ Sz)]. destruct (sizes_fun _ _ _ _ _ Sz Sz') as (<- & <-). clear Sz'.
  unfold bind at 1. destruct (Reflect_iff typ h) as (E1 & E2). apply E2 in Nt. destruct (Reflect typ h) as (r, h1). cbn in E1, Nt. subst. cbv iota beta zeta. rewrite (proj2 (Z.leb_le 0 n)), (proj2 (Z.leb_le n c)) by lia. cbn [andb].
  unfold make_with, bind. cbn [new_arr ret]. unfold new_arr, ret. rewrite !repeat_length. eexists _, _. split; [reflexivity|]. split; [reflexivity|]. split; [|split; [reflexivity|split; [reflexivity|split; [cbn; lia|apply new_others]]]].
  cbn [elems skipn]. rewrite arr_new, Nat.eqb_refl. rewrite firstn_app, repeat_length, Nat.sub_diag. cbn. rewrite app_nil_r. apply firstn_all2. rewrite repeat_length. lia.
Qed.
Theorem C77_slice_refused : forall h typ args, (forall t n c, names typ t -> sizes args n c -> 0 <= n <= c -> False) -> CMkSlice typ args h = (None, h).
Proof.
  intros h typ args H. unfold CMkSlice. unfold bind at 1. destruct (sizes_iff args h) as [(n & c & Sz & ->)|(N & ->)]; [|reflexivity]. unfold bind at 1. destruct (Reflect_iff typ h) as (E1 & E2). destruct (Reflect typ h) as ([t|], h1); cbn in E1; subst h1; [|reflexivity].
  cbv iota beta zeta. destruct (Z.leb_spec 0 n), (Z.leb_spec n c); try reflexivity. exfalso. apply (H t n c); [apply E2; reflexivity|exact Sz|lia].
Qed.

(** ** sliceFrom *)
Lemma kinds_rest_string : forall l, kinds_rest kString l = if forallb is_string l then kString else kInvalid.
Proof. induction l as [|a l IH]; [reflexivity|]. cbn [kinds_rest forallb]. destruct a; try reflexivity; exact IH. Qed.
Lemma kinds_rest_float : forall l, kinds_rest kFloat64 l = if forallb is_number l then kFloat64 else kInvalid.
Proof. induction l as [|a l IH]; [reflexivity|]. cbn [kinds_rest forallb]. destruct a; try reflexivity; exact IH. Qed.
Lemma kinds_rest_int : forall l, kinds_rest kInt l = if forallb is_int l then kInt else if forallb is_number l then kFloat64 else kInvalid.
Proof. induction l as [|a l IH]; [reflexivity|]. cbn [kinds_rest forallb]. destruct a; try reflexivity; try exact IH. exact (kinds_rest_float l). Qed.
Lemma kinds_rest_other : forall k l, k <> kInt -> k <> kFloat64 -> kinds_rest k l = k \/ kinds_rest k l = kInvalid.
Proof.
  intros k l N1 N2. induction l as [|a l IH]; [auto|]. cbn [kinds_rest]. destruct (ckind a =? k); [exact IH|]. apply Z.eqb_neq in N1, N2. rewrite N1, N2. cbn. auto.
Qed.
Lemma kinds_common : forall l, l <> [] -> match common l with TyInt => kinds l = kInt | TyFloat => kinds l = kFloat64 | TyString => kinds l = kString | TyVar => kinds l <> kInt /\ kinds l <> kFloat64 /\ kinds l <> kString | _ => False end.
Proof.
  intros [|a l] N; [congruence|]. clear N. unfold common, kinds.
  assert (O : forall k, k <> kInt -> k <> kFloat64 -> k <> kString -> kinds_rest k l <> kInt /\ kinds_rest k l <> kFloat64 /\ kinds_rest k l <> kString) by (intros k N1 N2 N3; destruct (kinds_rest_other k l N1 N2) as [->| ->]; repeat split; try assumption; discriminate).
  destruct a; cbn [forallb is_int is_number is_string andb ckind]; try (apply O; discriminate).
  - rewrite kinds_rest_int. destruct (forallb is_int l); [reflexivity|]. destruct (forallb is_number l); [reflexivity|]. repeat split; discriminate.
  - rewrite kinds_rest_float. destruct (forallb is_number l); [reflexivity|]. repeat split; discriminate.
  - rewrite kinds_rest_string. destruct (forallb is_string l); [reflexivity|]. repeat split; discriminate.
Qed.
Lemma common_cases : forall l, common l = TyInt \/ common l = TyFloat \/ common l = TyString \/ common l = TyVar.
Proof. intro l. unfold common. destruct (forallb is_int l), (forallb is_number l), (forallb is_string l); auto. Qed.
Lemma stored_common : forall l, Forall2 (fun v x => stored (common l) v = Some x) l (map (conv (common l)) l).
Proof.
  intro l. assert (G : forall t l', (forall v, In v l' -> stored t v = Some (conv t v)) -> Forall2 (fun v x => stored t v = Some x) l' (map (conv t) l')) by (induction l'; intro H; cbn; constructor; [apply H; left; reflexivity|apply IHl'; intros; apply H; right; assumption]).
  apply G. unfold common. destruct (forallb is_int l) eqn:E1; [|destruct (forallb is_number l) eqn:E2; [|destruct (forallb is_string l) eqn:E3; [|reflexivity]]].
  - intros v H. apply (proj1 (forallb_forall _ _) E1) in H. destruct v; try discriminate H. reflexivity.
  - intros v H. apply (proj1 (forallb_forall _ _) E2) in H. destruct v; try discriminate H; reflexivity.
  - intros v H. apply (proj1 (forallb_forall _ _) E3) in H. destruct v; try discriminate H. reflexivity.
Qed.
(** a new slice of the arguments: of ints, of floats if there is one among the ints, of strings, or of anything *)
Theorem C77_sliceFrom : forall g h args, args <> [] -> exists s h', CSliceFrom g args h = (Some s, h') /\ dyn s = Some (TySlice (common args)) /\ elems h' s = map (conv (common args)) args /\ slen s = length args /\ scap s = length args /\ fresh h s /\ others h h'.
Proof.
  intros g h args N. assert (E : CSliceFrom g args h = (s <-- make_with (common args) [] (length args) ;; CAppend g s args) h).
  { pose proof (kinds_common args N) as K. destruct args as [|a l]; [congruence|]. unfold CSliceFrom. cbv zeta. destruct (common_cases (a :: l)) as [C|[C|[C|C]]]; rewrite C in K |- *; [rewrite K; reflexivity..|]. destruct K as (K1 & K2 & K3). apply Z.eqb_neq in K1, K2, K3. rewrite K1, K2, K3. reflexivity. }
  rewrite E. unfold bind at 1, make_with, bind. unfold new_arr, ret. cbv beta iota. cbn [length app].
  set (t := common args). set (z := repeat (zero t) (length args - 0)). set (h1 := mkHeap (arrs h ++ [z]) (maps h)).
  assert (Lz : length z = length args) by (unfold z; rewrite repeat_length; lia).
  assert (F : fits h1 (length (arrs h)) 0 0 (length args)) by (split; [lia|]; intros _; unfold h1; rewrite arr_new, Nat.eqb_refl; cbn [arrs]; rewrite app_length; cbn; lia).
  destruct (append_ok g t (length (arrs h)) 0 0 (length args) args _ h1 F (stored_common args)) as (b & o & c & h' & E2 & (G1 & G2 & G3 & G4 & G5 & G6)). fold t in E2, G1, G3, G4, G5, G6.
  rewrite map_length in *. destruct G6 as [(_ & -> & -> & ->)|(G6 & _)]; [|lia]. eexists _, _. split; [exact E2|]. split; [reflexivity|]. split; [|split; [reflexivity|split; [reflexivity|split; [cbn; lia|]]]].
  - pose proof (fits_elems _ _ _ _ _ G1) as L1. apply (nth_ext _ _ CNil CNil); [rewrite map_length; exact L1|]. cbn [elems]. rewrite L1. intros n Ln. rewrite nth_firstn, nth_skipn by exact Ln. exact (G3 n Ln).
  - apply (fr_others O O O); [lia|]. apply (fr_trans _ _ _ h h1 (length (arrs h)) (0 + 0) (0 + written t 0 (length args) (length args))); [|exact G4|left; lia].
    split; [reflexivity|]. split; [cbn; rewrite app_length; lia|]. intros a' La. unfold cell, h1. rewrite arr_new. destruct (Nat.eqb_spec a' (length (arrs h))); [lia|]. auto.
Qed.
Theorem C77_sliceFrom_none : forall g h, CSliceFrom g [] h = (Some (CSlice TyVar 0 0 0 0), h).
Proof. reflexivity. Qed.

(** ** What one may expect and does not hold *)
Lemma r_consts : forall g h vs l, reached g h vs -> Forall constant l -> reached g h (l ++ vs).
Proof. intros g h vs l R F. induction F; [exact R|]. apply r_constant; assumption. Qed.
Lemma r_some : forall g h vs c v h', reached g h vs -> incl (args_of c) vs -> does g c h = (Some v, h') -> reached g h' (v :: vs).
Proof. intros g h vs c v h' R I E. exact (r_call g h vs c (Some v) h' R I E). Qed.
(** a = slice("int", 0, 4); b = append(a, 1): then append(a, 2) makes get(b, 0) be 2 *)
Example aliases : forall g, exists h vs, reached g h vs /\ In (CSlice TyInt 0 0 0 4) vs /\ In (CSlice TyInt 0 0 1 4) vs /\ elems h (CSlice TyInt 0 0 1 4) = [CInt 1] /\
  exists h', CAppend g (CSlice TyInt 0 0 0 4) [CInt 2] h = (Some (CSlice TyInt 0 0 1 4), h') /\ elems h' (CSlice TyInt 0 0 1 4) = [CInt 2].
Proof.
  intro g. eexists _, _. split.
  - eapply (r_some g _ _ (KAppend (CSlice TyInt 0 0 0 4) [CInt 1])); [eapply (r_some g _ _ (KSlice (CStr (s2b "int")) [CInt 0; CInt 4])); [apply (r_consts g _ _ [CStr (s2b "int"); CInt 0; CInt 4; CInt 1] (r_start g)); repeat constructor|..]|..].
    + intros x H. cbn in H |- *. tauto.
    + reflexivity.
    + intros x H. cbn in H |- *. tauto.
    + reflexivity.
  - cbn. repeat split; auto. eexists. split; reflexivity.
Qed.
Theorem C77_append_other_refuted : ~ (forall g h vs s s2 l s' h', reached g h vs -> In s vs -> In s2 vs -> CAppend g s l h = (Some s', h') -> elems h' s2 = elems h s2).
Proof. intro H. destruct (aliases (fun _ _ n => n)) as (h & vs & R & A & B & E & h' & C & D). specialize (H _ _ _ _ _ _ _ _ R A B C). congruence. Qed.
(** a = slice("var", 1): set(a, 0, nil) panics, though append(a, nil) stores nil *)
Theorem C77_set_nil_refuted : ~ (forall g h vs a off len cap i v, reached g h vs -> In (CSlice TyVar a off len cap) vs -> (i < len)%nat -> exists h', CSet (CSlice TyVar a off len cap) [CInt (Z.of_nat i); v] h = (Some tt, h')).
Proof.
  intro H. set (g := fun (_ : ty) (_ n : nat) => n). assert (R : reached g (mkHeap [[CNil]] []) (CSlice TyVar 0 0 1 1 :: [CStr (s2b "var"); CInt 1] ++ [])).
  { eapply (r_some g _ _ (KSlice (CStr (s2b "var")) [CInt 1])); [apply r_consts; [apply r_start|repeat constructor]|intros x X; cbn in X |- *; tauto|reflexivity]. }
  destruct (H g _ _ _ _ _ _ O CNil R (or_introl eq_refl) (Nat.lt_0_1)) as (h' & E). discriminate E.
Qed.

(** ** Maps *)
Lemma key_ok_iff : forall k key, key_ok k key = true <-> key_for k key.
Proof.
  intros k key. unfold key_ok, key_for. rewrite andb_true_iff, assignable_iff. split; intros (A & B); (split; [exact A|]).
  - split; intros; intros ->; discriminate B.
  - destruct B as (B1 & B2). destruct key; try reflexivity; exfalso; [eapply B1|eapply B2]; reflexivity.
Qed.
Lemma key_eq_for : forall k a b, key_for k a -> key_eq a b = true -> key_for k b.
Proof.
  intros k a b H E. apply key_ok_iff. apply key_ok_iff in H. unfold key_ok in *. apply andb_true_iff in H. destruct H as (H1 & H2).
  assert (D : dyn a = dyn b /\ hashable b = true) by (destruct a, b; try discriminate E; try (split; reflexivity); cbn in *; apply andb_true_iff in E; destruct E as (E & _); apply Nat.eqb_eq in E; subst; auto).
  destruct D as (D1 & D2). unfold assignable in *. rewrite <- D1, H1, D2. reflexivity.
Qed.
(** equality of keys: the same value, but for 0 and -0, and NaN *)
Theorem C78_keys : forall a b, key_eq a b = true <->
  match a, b with
  | CFloat x, CFloat y => match x, y with S754_nan, _ => False | S754_zero _, S754_zero _ => True | _, _ => x = y end
  | CNil, _ | CSlice _ _ _ _ _, _ | CMap _ _ _, _ => False
  | _, _ => a = b
  end.
Proof.
  intros a b. destruct a, b; cbn; try (split; [discriminate|intro H; try contradiction; discriminate H]); try (split; auto; fail).
  - rewrite Z.eqb_eq. split; congruence.
  - rewrite Bool.eqb_true_iff. split; congruence.
  - rewrite f_eq_iff. destruct f, f0; reflexivity.
  - rewrite beq_eq. split; congruence.
  - rewrite Z.eqb_eq. split; congruence.
  - rewrite ty_eqb_eq. split; congruence.
  - rewrite andb_true_iff, !Nat.eqb_eq. split; [intros (-> & ->); reflexivity|intros [= -> ->]; auto].
Qed.
(** get panics exactly on what cannot be a key, and changes nothing *)
Theorem C78_get : forall h k v m key, snd (CGet (CMap k v m) key h) = h /\ (fst (CGet (CMap k v m) key h) <> None <-> key_for k key).
Proof.
  intros h k v m key. cbn [CGet]. rewrite <- key_ok_iff. destruct (key_ok k key).
  - destruct m; cbn; (split; [reflexivity|]); split; congruence.
  - cbn. split; [reflexivity|]. split; congruence.
Qed.
(** set does on what can be a key, what can be an element, nil and undefined, but that a nil map can only be deleted from *)
Definition set_ok (k v : ty) (m : option nat) (key x : cv) : Prop := key_for k key /\ (x = CUndef \/ (m <> None /\ (x = CNil \/ storable x v))).
Lemma set_eq : forall k v m key x h, CSet (CMap k v m) [key; x] h = (match x with CUndef => SetMapIndex k v m key None | CNil => SetMapIndex k v m key (Some (zero v)) | _ => if assignable x v then SetMapIndex k v m key (Some x) else panics end) h.
Proof.
  intros k v m key x h. unfold CSet. cbn [length Nat.odd pairs set_map]. change (Nat.odd 2) with false. cbv iota.
  assert (G : forall X : M unit, (X ;;; ret tt) h = X h) by (intro X; unfold bind, ret; destruct (X h) as ([[]|], h1); reflexivity). exact (G _).
Qed.
Lemma put_eq : forall k v m key x h, SetMapIndex k v m key (Some x) h = if key_ok k key then match m with Some i => (Some tt, mkHeap (arrs h) (upd i (put_key key x (entries h i)) (maps h))) | None => (None, h) end else (None, h).
Proof. intros. unfold SetMapIndex. destruct (key_ok k key); [|reflexivity]. destruct m; reflexivity. Qed.
Lemma del_eq : forall k v m key h, SetMapIndex k v m key None h = if key_ok k key then match m with Some i => (Some tt, mkHeap (arrs h) (upd i (del_key key (entries h i)) (maps h))) | None => (Some tt, h) end else (None, h).
Proof. intros. unfold SetMapIndex. destruct (key_ok k key); [|reflexivity]. destruct m; reflexivity. Qed.
(** what is stored for a value given to set; None: the key is deleted *)
Definition given (v : ty) (x : cv) : option cv := match x with CUndef => None | CNil => Some (zero v) | _ => Some x end.
Lemma set_cases : forall k v m key x h, (set_ok k v m key x /\ CSet (CMap k v m) [key; x] h = (Some tt, match m with Some i => mkHeap (arrs h) (upd i (match given v x with Some y => put_key key y (entries h i) | None => del_key key (entries h i) end) (maps h)) | None => h end)) \/
  (~ set_ok k v m key x /\ CSet (CMap k v m) [key; x] h = (None, h)).
Proof.
  intros k v m key x h. rewrite set_eq. unfold set_ok. assert (K := key_ok_iff k key). assert (A := assignable_iff x v).
  assert (D : x = CUndef \/ x = CNil \/ (x <> CUndef /\ x <> CNil)) by (destruct x; auto; right; right; split; discriminate). destruct D as [->|[->|(D1 & D2)]].
  - rewrite del_eq. destruct (key_ok k key); [left|right]; (split; [|destruct m; reflexivity]); [split; [apply K; reflexivity|auto]|]. intros (X & _). apply K in X. discriminate X.
  - rewrite put_eq. destruct (key_ok k key); [destruct m; [left|right]|right]; (split; [|reflexivity]).
    + split; [apply K; reflexivity|]. right. split; [discriminate|auto].
    + intros (_ & [X|(X & _)]); congruence.
    + intros (X & _). apply K in X. discriminate X.
  - replace (match x with CUndef => SetMapIndex k v m key None | CNil => SetMapIndex k v m key (Some (zero v)) | _ => if assignable x v then SetMapIndex k v m key (Some x) else panics end) with (if assignable x v then SetMapIndex k v m key (Some x) else panics) by (destruct x; congruence).
    replace (given v x) with (Some x) by (destruct x; reflexivity || congruence). destruct (assignable x v).
    + rewrite put_eq. destruct (key_ok k key); [destruct m; [left|right]|right]; (split; [|reflexivity]).
      * split; [apply K; reflexivity|]. right. split; [discriminate|]. right. apply A. reflexivity.
      * intros (_ & [X|(X & _)]); congruence.
      * intros (X & _). apply K in X. discriminate X.
    + right. split; [|reflexivity]. intros (_ & [X|(_ & [X|X])]); try congruence. apply A in X. discriminate X.
Qed.
Theorem C78_set : forall h k v m key x, (exists h', CSet (CMap k v m) [key; x] h = (Some tt, h')) <-> set_ok k v m key x.
Proof. intros h k v m key x. destruct (set_cases k v m key x h) as [(O & E)|(N & E)]; rewrite E; split; intro H; auto; try contradiction; [eexists; reflexivity|]. destruct H as (h' & H). discriminate H. Qed.
Theorem C78_set_refused : forall h k v m key x h', CSet (CMap k v m) [key; x] h = (None, h') -> h' = h.
Proof. intros h k v m key x h'. destruct (set_cases k v m key x h) as [(O & E)|(N & E)]; rewrite E; [discriminate|]. intros [= <-]. reflexivity. Qed.
Lemma entries_upd : forall h i l j, (i < length (maps h))%nat -> entries (mkHeap (arrs h) (upd i l (maps h))) j = if (j =? i)%nat then l else entries h j.
Proof. intros h i l j L. unfold entries. cbn [maps]. rewrite nth_upd. apply Nat.ltb_lt in L. rewrite L, andb_true_r. reflexivity. Qed.
Lemma map_bound : forall h k v i, sound h [CMap k v (Some i)] -> (i < length (maps h))%nat /\ distinct (entries h i).
Proof.
  intros h k v i (T & (_ & I) & S). inversion S as [|? ? S0 _]; subst. cbn in S0. split; [rewrite <- (Forall2_len _ _ _ _ _ I); apply nth_error_Some; congruence|]. exact (proj1 (Forall2_nth _ _ _ _ _ _ _ [] I S0)).
Qed.
(** then what get returns for that key, or one equal to it, is the value given (the zero value for nil, undefined if it was), through every reference to the map; all else is as before *)
Theorem C78_set_effect : forall h k v m key x h', sound h [CMap k v m] -> CSet (CMap k v m) [key; x] h = (Some tt, h') ->
  arrs h' = arrs h /\
  (m <> None -> forall key', key_eq key' key = true -> CGet (CMap k v m) key' h' = (Some (match x with CNil => zero v | _ => x end), h')) /\
  (forall k2 v2 m2 key', m2 <> m \/ m = None \/ key_eq key' key = false -> fst (CGet (CMap k2 v2 m2) key' h') = fst (CGet (CMap k2 v2 m2) key' h)).
Proof.
  intros h k v m key x h' S E. destruct (set_cases k v m key x h) as [(O & E')|(N & E')]; rewrite E' in E; [|discriminate E]. injection E as <-. destruct m as [i|].
  - destruct (map_bound _ _ _ _ S) as (L & D). split; [reflexivity|]. split.
    + intros _ key' Ek. cbn [CGet]. assert (K : key_ok k key' = true) by (apply key_ok_iff; apply (key_eq_for k key); [apply O|rewrite key_eq_sym; exact Ek]). rewrite K. rewrite entries_upd, Nat.eqb_refl by exact L. do 2 f_equal.
      destruct x; cbn [given]; rewrite ?find_put, ?(find_del _ _ _ D), Ek; reflexivity.
    + intros k2 v2 m2 key' N. cbn [CGet]. destruct (key_ok k2 key'); [|reflexivity]. destruct m2 as [j|]; [|reflexivity]. cbn [fst]. rewrite entries_upd by exact L. destruct (Nat.eqb_spec j i) as [->|Nj]; [|reflexivity].
      destruct N as [N|[N|N]]; try congruence. do 2 f_equal. destruct (given v x); rewrite ?find_put, ?(find_del _ _ _ D), N; reflexivity.
  - split; [reflexivity|]. split; [congruence|]. reflexivity.
Qed.
(** delete is setting undefined *)
Theorem C78_delete : forall h k v m key, Delete (CMap k v m) key h = CSet (CMap k v m) [key; CUndef] h.
Proof. intros. rewrite set_eq. reflexivity. Qed.
(** no map has undefined as an element: for get, an absent key and only that is undefined *)
Definition defined (h : heap) : Prop := Forall (Forall (fun p : cv * cv => snd p <> CUndef)) (maps h).
Definition def {A : Type} (m : M A) : Prop := forall h, defined h -> defined (snd (m h)).
Lemma def_ret : forall A (x : A), def (ret x).
Proof. intros A x h H. exact H. Qed.
Lemma def_panics : forall A, def (@panics A).
Proof. intros A h H. exact H. Qed.
Lemma def_bind : forall A B (m : M A) (k : A -> M B), def m -> (forall x, def (k x)) -> def (bind m k).
Proof. intros A B m k Hm Hk h H. unfold bind. specialize (Hm h H). destruct (m h) as ([x|], h1); [apply Hk|]; exact Hm. Qed.
Lemma def_must : forall A (o : option A), def (must o).
Proof. intros A [x|]; [apply def_ret|apply def_panics]. Qed.
Lemma def_same : forall A (m : M A), (forall h, maps (snd (m h)) = maps h) -> def m.
Proof. intros A m E h H. unfold defined. rewrite E. exact H. Qed.
Lemma def_Reflect : forall t, def (Reflect t).
Proof. intros []; try apply def_panics; [apply def_must|apply def_ret]. Qed.
Lemma def_as_int : forall t, def (as_int t).
Proof. intros []; try apply def_panics. apply def_ret. Qed.
Lemma def_new_map : forall l h, defined h -> Forall (fun p => snd p <> CUndef) l -> defined (snd (new_map l h)).
Proof. intros l h H F. unfold defined. cbn. apply Forall_app. auto. Qed.
Lemma def_entries : forall h i, defined h -> Forall (fun p => snd p <> CUndef) (entries h i).
Proof. intros h i H. unfold entries. destruct (Nat.lt_ge_cases i (length (maps h))); [apply (proj1 (Forall_forall _ _) H), nth_In; assumption|rewrite nth_overflow by assumption; constructor]. Qed.
Lemma def_SetMapIndex : forall k v m key o, o <> Some CUndef -> def (SetMapIndex k v m key o).
Proof.
  intros k v m key [x|] N h H.
  - rewrite put_eq. destruct (key_ok k key); [|exact H]. destruct m as [i|]; [|exact H]. unfold defined. cbn. apply Forall_upd; [|exact H]. apply Forall_put; [cbn; congruence|cbn; congruence|apply def_entries, H].
  - rewrite del_eq. destruct (key_ok k key); [|exact H]. destruct m as [i|]; [|exact H]. unfold defined. cbn. apply Forall_upd; [|exact H]. apply Forall_del, def_entries, H.
Qed.
Lemma def_set_map : forall k v m l, def (set_map k v m l).
Proof.
  intros k v m. induction l as [|(key, x) l IH]; [apply def_ret|]. cbn [set_map]. apply def_bind; [|intros; exact IH].
  destruct x; try (destruct (assignable _ v); [|apply def_panics]); apply def_SetMapIndex; try discriminate. destruct v; discriminate.
Qed.
Lemma def_write : forall a i v, def (write a i v).
Proof. intros. apply def_same. reflexivity. Qed.
Lemma def_new_arr : forall l, def (new_arr l).
Proof. intros. apply def_same. reflexivity. Qed.
Lemma def_set_slice : forall t a off len l, def (set_slice t a off len l).
Proof.
  intros t a off len. induction l as [|(key, x) l IH]; [apply def_ret|]. cbn [set_slice]. apply def_bind; [apply def_must|]. intro i. apply def_bind; [|intros; exact IH]. destruct (assignable x t); [apply def_write|apply def_panics].
Qed.
Lemma def_grow : forall g t a off len cap n, def (grow g t a off len cap n).
Proof. intros. unfold grow. destruct (_ <=? _)%nat; [apply def_ret|]. apply def_same. reflexivity. Qed.
Lemma def_write_all : forall put l a i, def (write_all put a i l).
Proof. intros put. induction l as [|v l IH]; intros a i; [apply def_ret|]. cbn [write_all]. apply def_bind; [apply def_must|]. intro x. apply def_bind; [apply def_write|]. intros; apply IH. Qed.
Lemma def_append_with : forall g put t a off len cap l, def (append_with g put t a off len cap l).
Proof. intros. unfold append_with. apply def_bind; [apply def_grow|]. intros ((b, o), c). apply def_bind; [apply def_write_all|]. intros. apply def_ret. Qed.
Lemma def_CAppend : forall g a l, def (CAppend g a l).
Proof.
  intros g a l. destruct a; try apply def_panics. destruct t; try apply def_append_with. cbn [CAppend]. revert a off len cap. induction l as [|v l IH]; intros a off len cap; [apply def_ret|]. cbn [appendFloat].
  apply def_bind; [apply def_must|]. intro x. apply def_bind; [apply def_grow|]. intros ((b, o), c). apply def_bind; [apply def_write|]. intros; apply IH.
Qed.
Lemma def_make_with : forall t l c, def (make_with t l c).
Proof. intros. unfold make_with. apply def_bind; [apply def_new_arr|]. intros. apply def_ret. Qed.
(** the pairs that mapFrom stores *)
Definition same {A : Type} (m : M A) : Prop := forall h, snd (m h) = h.
Lemma fill_same : forall key val l acc h, (forall v, same (key v)) -> (forall v, same (val v)) -> snd (fill key val l acc h) = h.
Proof.
  intros key val l acc h Hk Hv. revert acc. induction l as [|(a, b) l IH]; intro acc; [reflexivity|]. cbn [fill]. unfold bind. specialize (Hv b h). destruct (val b h) as ([[x|]|], h1); cbn in Hv; subst h1; [|apply IH|reflexivity].
  specialize (Hk a h). destruct (key a h) as ([k|], h1); cbn in Hk; subst h1; [apply IH|reflexivity].
Qed.
Lemma fill_def : forall key val l acc h r h', (forall v h x h', val v h = (Some (Some x), h') -> x <> CUndef) -> Forall (fun p => snd p <> CUndef) acc -> fill key val l acc h = (Some r, h') -> Forall (fun p => snd p <> CUndef) r.
Proof.
  intros key val l acc h r h' Hv. revert acc h. induction l as [|(a, b) l IH]; intros acc h F E; cbn [fill] in E; [injection E as <- <-; exact F|]. unfold bind in E. destruct (val b h) as ([[x|]|], h1) eqn:Eb; [|exact (IH _ _ F E)|discriminate E].
  destruct (key a h1) as ([k|], h2); [|discriminate E]. refine (IH _ _ _ E). apply Forall_put; [|cbn; eapply Hv; exact Eb|exact F]. cbn. intros. eapply Hv. exact Eb.
Qed.
Lemma same_key : forall v, same (str_key v) /\ same (int_key v).
Proof. intro v. split; intro h; destruct v; reflexivity. Qed.
Lemma same_val : forall n v, same (snd (val_case n) v) /\ forall h x h', snd (val_case n) v h = (Some (Some x), h') -> x <> CUndef.
Proof.
  intros n v. unfold val_case. destruct (n =? kString); [|destruct (n =? kInt); [|destruct (n =? kFloat64)]]; cbn [snd]; (split; [intro h; destruct v; reflexivity|]); intros h x h' E ->; destruct v; cbv beta iota delta [as_elem str_key int_key float_val any_val as_str as_int as_float bind ret panics] in E; discriminate E.
Qed.
Lemma def_MapFrom : forall l, def (MapFrom l).
Proof.
  intros l h H. unfold MapFrom. destruct (Nat.odd _); [exact H|]. destruct l as [|v l]; [apply (def_new_map [] h H); constructor|]. cbv zeta. set (ps := pairs (v :: l)). pose proof (same_val (kinds (map snd ps))) as V. destruct (val_case (kinds (map snd ps))) as (vt, val). cbn [snd] in V.
  assert (G : forall key kt, (forall v, same (key v)) -> defined (snd ((l0 <-- fill key val ps [] ;; i <-- new_map l0 ;; ret (CMap kt vt (Some i))) h))).
  { intros key kt Hk. unfold bind at 1. pose proof (fill_same key val ps [] h Hk (fun v => proj1 (V v))) as S. destruct (fill key val ps [] h) as ([r|], h1) eqn:E; cbn in S; subst h1; [|exact H].
    apply (def_new_map r h H). refine (fill_def key val ps [] h r h _ (Forall_nil _) E). intros w h0 x h1 E1. exact (proj2 (V w) _ _ _ E1). }
  destruct (_ =? kString); [apply G; intro; apply same_key|]. destruct (_ =? kInt); [apply G; intro; apply same_key|exact H].
Qed.
Lemma def_does : forall g c, def (does g c).
Proof.
  intros g []; cbn [does].
  - unfold Mkmap. apply def_bind; [apply def_Reflect|]. intros []; try apply def_panics. intros h H. apply (def_new_map [] h H). constructor.
  - unfold MapOf. apply def_bind; [apply def_Reflect|]. intro x. apply def_bind; [apply def_Reflect|]. intro y. destruct x; (apply def_ret || apply def_panics).
  - apply def_bind; [apply def_Reflect|]. intros. apply def_ret.
  - apply def_MapFrom.
  - apply def_bind; [|intros; apply def_ret]. destruct m; try apply def_panics. apply def_SetMapIndex. discriminate.
  - apply def_bind; [|intros; apply def_ret]. unfold CSet. destruct (Nat.odd _); [apply def_panics|]. destruct m; try apply def_panics; [apply def_set_slice|apply def_set_map].
  - apply def_same. intro h. destruct m; cbn [CGet]; try reflexivity; unfold bind, must.
    + destruct (in_range k (length b)); reflexivity.
    + destruct (in_range k len); reflexivity.
    + destruct (key_ok k0 k); [|reflexivity]. destruct m; reflexivity.
  - apply def_same. intro h. destruct a; try reflexivity. destruct m; reflexivity.
  - apply def_same. intro h. destruct a; reflexivity.
  - unfold CSub. apply def_bind; [destruct i; (apply def_ret || apply def_as_int)|]. intro i1. apply def_bind; [destruct j; try apply def_as_int; destruct a; (apply def_ret || apply def_panics)|]. intro j1.
    destruct a; try apply def_panics; destruct (_ && _); (apply def_ret || apply def_panics).
  - apply def_CAppend.
  - unfold CMkSlice. apply def_bind.
    + destruct args as [|n [|c l]]; [apply def_ret|apply def_bind; [apply def_as_int|intros; apply def_ret]|]. apply def_bind; [apply def_as_int|]. intro. apply def_bind; [apply def_as_int|intros; apply def_ret].
    + intros (n, c). apply def_bind; [apply def_Reflect|]. intro. destruct (_ && _); [apply def_make_with|apply def_panics].
  - unfold CSliceFrom. destruct args; [apply def_ret|]. cbv zeta. repeat match goal with |- context [if ?b then _ else _] => destruct b end; (apply def_bind; [apply def_make_with|intros; apply def_CAppend]).
Qed.
Lemma reached_defined : forall g h vs, reached g h vs -> defined h.
Proof. intros g h vs R. induction R; [constructor|exact IHR|]. pose proof (def_does g c h IHR) as D. rewrite H0 in D. exact D. Qed.
Lemma get_absent : forall h k v i key, defined h -> key_for k key -> (fst (CGet (CMap k v (Some i)) key h) = Some CUndef <-> find_key key (entries h i) = None).
Proof.
  intros h k v i key D K. cbn [CGet]. rewrite (proj2 (key_ok_iff _ _) K). cbn [fst]. destruct (find_key key (entries h i)) as [x|] eqn:E; [|split; reflexivity]. split; [|discriminate]. intros [= ->].
  apply find_in in E. destruct E as (k' & E). apply (proj1 (Forall_forall _ _) (def_entries h i D)) in E. cbn in E. congruence.
Qed.
(** len: one more for a key that was undefined and is not any more, one less for one deleted *)
Definition count (h : heap) (m : cv) : nat := match fst (CLen m h) with Some (CInt n) => Z.to_nat n | _ => O end.
Theorem C78_len : forall g h vs k v m key x h', reached g h vs -> In (CMap k v m) vs -> CSet (CMap k v m) [key; x] h = (Some tt, h') ->
  let was := fst (CGet (CMap k v m) key h) <> Some CUndef in
  (exists n, CLen (CMap k v m) h = (Some (CInt (Z.of_nat n)), h)) /\
  (was -> x <> CUndef -> count h' (CMap k v m) = count h (CMap k v m)) /\ (was -> x = CUndef -> S (count h' (CMap k v m)) = count h (CMap k v m)) /\
  (~ was -> x <> CUndef -> count h' (CMap k v m) = S (count h (CMap k v m))) /\ (~ was -> x = CUndef -> count h' (CMap k v m) = count h (CMap k v m)) /\
  (forall k2 v2 m2, m2 <> m -> count h' (CMap k2 v2 m2) = count h (CMap k2 v2 m2)).
Proof.
  intros g h vs k v m key x h' R I E was. assert (S : sound h [CMap k v m]) by (destruct (reached_sound _ _ _ R) as (T & HT & F); exists T; split; [exact HT|]; constructor; [|constructor]; exact (proj1 (Forall_forall _ _) F _ I)).
  pose proof (reached_defined _ _ _ R) as D. split; [destruct m; cbn; eauto; exists O; reflexivity|].
  destruct (set_cases k v m key x h) as [(O & E')|(N & E')]; rewrite E' in E; [|discriminate E]. injection E as <-. assert (C : forall h i, count h (CMap k v (Some i)) = length (entries h i)) by (intros; unfold count; cbn; apply Nat2Z.id).
  destruct m as [i|].
  - destruct (map_bound _ _ _ _ S) as (L & _). rewrite !C. rewrite entries_upd, Nat.eqb_refl by exact L. assert (G := get_absent h k v i key D (proj1 O)). fold was in G.
    assert (W : was -> find_key key (entries h i) <> None) by (intros W X; apply G in X; exact (W X)).
    assert (W' : ~ was -> find_key key (entries h i) = None) by (intro W'; destruct (find_key key (entries h i)) eqn:Ef; [|reflexivity]; exfalso; apply W'; intro X; apply G in X; congruence).
    assert (X0 : x <> CUndef -> exists y, given v x = Some y) by (intro Nx; destruct x; cbn; eauto; congruence).
    repeat split; intros.
    + destruct (X0 H0) as (y & ->). rewrite put_len. specialize (W H). destruct (find_key key (entries h i)); congruence.
    + subst x. cbn [given]. rewrite del_len. specialize (W H). destruct (find_key key (entries h i)) eqn:Ef; [|congruence]. destruct (find_in _ _ _ Ef) as (k' & Hk). destruct (entries h i); [contradiction|reflexivity].
    + destruct (X0 H0) as (y & ->). rewrite put_len, (W' H). reflexivity.
    + subst x. cbn [given]. rewrite del_len, (W' H). reflexivity.
    + unfold count. destruct m2 as [j|]; [|reflexivity]. cbn [CLen fst]. rewrite entries_upd by exact L. destruct (Nat.eqb_spec j i) as [->|]; [congruence|reflexivity].
  - assert (NW : ~ was) by (intro W; apply W; cbn; rewrite (proj2 (key_ok_iff _ _) (proj1 O)); reflexivity). assert (X : x = CUndef) by (destruct O as (_ & [X|(X & _)]); congruence).
    repeat split; intros; try reflexivity; contradiction.
Qed.
(** mkmap: a new map with nothing in it *)
Lemma new_map_gets : forall h l k2 v2 m2 key, sound h [CMap k2 v2 m2] -> fst (CGet (CMap k2 v2 m2) key (mkHeap (arrs h) (maps h ++ [l]))) = fst (CGet (CMap k2 v2 m2) key h).
Proof.
  intros h l k2 v2 [i|] key S; cbn [CGet]; (destruct (key_ok k2 key); [|reflexivity]); [|reflexivity]. destruct (map_bound _ _ _ _ S) as (L & _). cbn [fst]. unfold entries. cbn [maps]. rewrite app_nth1 by exact L. reflexivity.
Qed.
Theorem C78_mkmap : forall h typ k v, names typ (TyMap k v) -> exists m h', Mkmap typ h = (Some (CMap k v (Some m)), h') /\ (length (maps h) <= m)%nat /\ arrs h' = arrs h /\
  (forall key, key_for k key -> CGet (CMap k v (Some m)) key h' = (Some CUndef, h')) /\ CLen (CMap k v (Some m)) h' = (Some (CInt 0), h') /\
  forall k2 v2 m2 key, sound h [CMap k2 v2 m2] -> fst (CGet (CMap k2 v2 m2) key h') = fst (CGet (CMap k2 v2 m2) key h).
Proof.
  intros h typ k v N. unfold Mkmap, bind. destruct (Reflect_iff typ h) as (E1 & E2). apply E2 in N. destruct (Reflect typ h) as (r, h1). cbn in E1, N. subst. unfold new_map, ret. eexists _, _. split; [reflexivity|]. split; [lia|]. split; [reflexivity|].
  assert (X : entries (mkHeap (arrs h) (maps h ++ [[]])) (length (maps h)) = []) by (unfold entries; cbn; rewrite app_nth2, Nat.sub_diag by lia; reflexivity). split; [|split].
  - intros key K. cbn [CGet]. rewrite (proj2 (key_ok_iff _ _) K), X. reflexivity.
  - cbn [CLen]. rewrite X. reflexivity.
  - intros. apply new_map_gets. assumption.
Qed.
Theorem C78_mkmap_refused : forall h typ, (forall k v, ~ names typ (TyMap k v)) -> Mkmap typ h = (None, h).
Proof.
  intros h typ N. unfold Mkmap, bind. destruct (Reflect_iff typ h) as (E1 & E2). destruct (Reflect typ h) as ([t|], h1); cbn in E1; subst h1; [|reflexivity]. destruct t; try reflexivity. exfalso. apply (N t1 t2). apply E2. reflexivity.
Qed.
(** the types that can be built *)
Theorem C78_types : forall h a b s t, names a s -> names b t -> fst (SliceOf a h) = Some (CType (TySlice s)) /\
  fst (MapOf a b h) = match s with TySlice _ | TyMap _ _ => None | _ => Some (CType (TyMap s t)) end.
Proof.
  intros h a b s t A B. destruct (Reflect_iff a h) as (A1 & A2), (Reflect_iff b h) as (B1 & B2). apply A2 in A. apply B2 in B. unfold SliceOf, MapOf, bind. destruct (Reflect a h) as (r, h1). cbn in A1, A. subst. destruct (Reflect b h) as (r, h1). cbn in B1, B. subst. split; [reflexivity|]. destruct s; reflexivity.
Qed.
(** mapFrom *)
Lemma val_ok : forall vals h, vals <> [] -> fst (val_case (kinds vals)) = common vals /\ forall b, In b vals -> snd (val_case (kinds vals)) b h = (Some (match b with CUndef => None | _ => Some (conv (common vals) b) end), h).
Proof.
  intros vals h N. pose proof (kinds_common vals N) as K. destruct (common_cases vals) as [C|[C|[C|C]]]; rewrite C in *; unfold val_case.
  - rewrite K. split; [reflexivity|]. intros b H. unfold common in C. destruct (forallb is_int vals) eqn:E1; [|destruct (forallb is_number vals), (forallb is_string vals); discriminate C]. apply (proj1 (forallb_forall _ _) E1) in H. destruct b; try discriminate H. reflexivity.
  - rewrite K. split; [reflexivity|]. intros b H. unfold common in C. destruct (forallb is_int vals); [discriminate C|]. destruct (forallb is_number vals) eqn:E1; [|destruct (forallb is_string vals); discriminate C]. apply (proj1 (forallb_forall _ _) E1) in H. destruct b; try discriminate H; reflexivity.
  - rewrite K. split; [reflexivity|]. intros b H. unfold common in C. destruct (forallb is_int vals); [discriminate C|]. destruct (forallb is_number vals); [discriminate C|]. destruct (forallb is_string vals) eqn:E1; [|discriminate C]. apply (proj1 (forallb_forall _ _) E1) in H. destruct b; try discriminate H. reflexivity.
  - destruct K as (K1 & K2 & K3). apply Z.eqb_neq in K1, K2, K3. rewrite K1, K2, K3. split; [reflexivity|]. intros b _. destruct b; reflexivity.
Qed.
Lemma fill_ok : forall key val vt h l acc, (forall a, In a (map fst l) -> key a h = (Some a, h)) -> (forall b, In b (map snd l) -> val b h = (Some (match b with CUndef => None | _ => Some (conv vt b) end), h)) ->
  exists r, fill key val l acc h = (Some r, h) /\ forall k2, match find_key k2 r with Some v => v | None => CUndef end = last_of vt k2 l (match find_key k2 acc with Some v => v | None => CUndef end).
Proof.
  intros key val vt h. induction l as [|(a, b) l IH]; intros acc Hk Hv; [exists acc; split; reflexivity|]. cbn [fill]. unfold bind. rewrite Hv by (left; reflexivity).
  assert (D : b = CUndef \/ b <> CUndef) by (destruct b; (left; reflexivity) || (right; discriminate)). destruct D as [->|D].
  - destruct (IH acc) as (r & E & F); [intros; apply Hk; right; assumption|intros; apply Hv; right; assumption|]. exists r. split; [exact E|]. intro k2. rewrite F. reflexivity.
  - replace (match b with CUndef => None | _ => Some (conv vt b) end) with (Some (conv vt b)) by (destruct b; congruence). rewrite Hk by (left; reflexivity).
    destruct (IH (put_key a (conv vt b) acc)) as (r & E & F); [intros; apply Hk; right; assumption|intros; apply Hv; right; assumption|]. exists r. split; [exact E|]. intro k2. rewrite F, find_put. cbn [last_of]. f_equal.
    destruct b; try congruence; destruct (key_eq k2 a); reflexivity.
Qed.
Lemma pairs_ne : forall l, l <> [] -> Nat.odd (length l) = false -> pairs l <> [].
Proof. intros [|a [|b l]] N E; [congruence|discriminate E|discriminate]. Qed.
Theorem C78_mapFrom : forall h args kt, args <> [] -> Nat.odd (length args) = false -> let ps := pairs args in let vt := common (map snd ps) in
  (kt = TyString /\ forallb is_string (map fst ps) = true) \/ (kt = TyInt /\ forallb is_int (map fst ps) = true) ->
  exists m h', MapFrom args h = (Some (CMap kt vt (Some m)), h') /\ (length (maps h) <= m)%nat /\ arrs h' = arrs h /\
    (forall key, key_for kt key -> CGet (CMap kt vt (Some m)) key h' = (Some (last_of vt key ps CUndef), h')) /\
    forall k2 v2 m2 key, sound h [CMap k2 v2 m2] -> fst (CGet (CMap k2 v2 m2) key h') = fst (CGet (CMap k2 v2 m2) key h).
Proof.
  intros h args kt N E ps vt D. assert (Nk : map fst ps <> [] /\ map snd ps <> []) by (pose proof (pairs_ne args N E) as X; fold ps in X; destruct ps; [congruence|split; discriminate]).
  destruct (val_ok (map snd ps) h (proj2 Nk)) as (V1 & V2). fold vt in V1, V2.
  assert (K : exists key, (forall a, In a (map fst ps) -> key a h = (Some a, h)) /\ MapFrom args h = (l <-- fill key (snd (val_case (kinds (map snd ps)))) ps [] ;; i <-- new_map l ;; ret (CMap kt vt (Some i))) h).
  { unfold MapFrom. rewrite E. destruct args as [|a0 args]; [congruence|]. cbv zeta. fold ps. pose proof (kinds_common (map fst ps) (proj1 Nk)) as K. rewrite <- V1. destruct (val_case (kinds (map snd ps))) as (vt0, val). cbn [fst snd]. destruct D as [(-> & D)|(-> & D)].
    - exists str_key. split; [intros a H; apply (proj1 (forallb_forall _ _) D) in H; destruct a; try discriminate H; reflexivity|].
      assert (C : common (map fst ps) = TyString). { unfold common. rewrite D. destruct (map fst ps) as [|x l]; [destruct Nk; congruence|]. cbn in D. destruct x; try discriminate D. reflexivity. }
      rewrite C in K. rewrite K. reflexivity.
    - exists int_key. split; [intros a H; apply (proj1 (forallb_forall _ _) D) in H; destruct a; try discriminate H; reflexivity|]. unfold common in K. rewrite D in K. rewrite K. reflexivity. }
  destruct K as (key & K1 & ->). destruct (fill_ok key _ vt h ps [] K1 V2) as (r & F & G). unfold bind. rewrite F. unfold new_map, ret. eexists _, _. split; [reflexivity|]. split; [lia|]. split; [reflexivity|]. split.
  - intros k2 Hk. cbn [CGet]. rewrite (proj2 (key_ok_iff _ _) Hk). unfold entries at 1. cbn [maps]. rewrite app_nth2, Nat.sub_diag by lia. cbn [nth]. rewrite (G k2). reflexivity.
  - intros. apply new_map_gets. assumption.
Qed.
Theorem C78_mapFrom_refused : forall h args, Nat.odd (length args) = true \/ (forallb is_string (map fst (pairs args)) = false /\ forallb is_int (map fst (pairs args)) = false) -> MapFrom args h = (None, h).
Proof.
  intros h args D. unfold MapFrom. destruct (Nat.odd (length args)) eqn:E; [reflexivity|]. destruct D as [D|(D1 & D2)]; [discriminate D|]. destruct args as [|a l]; [discriminate D1|]. cbv zeta. set (ps := pairs (a :: l)) in *.
  assert (Nk : map fst ps <> []) by (intro X; rewrite X in D1; discriminate D1). pose proof (kinds_common _ Nk) as K. destruct (val_case _) as (vt, val). unfold common in K. rewrite D1, D2 in K.
  assert (X : kinds (map fst ps) <> kString /\ kinds (map fst ps) <> kInt) by (destruct (forallb is_number (map fst ps)); [rewrite K; split; discriminate|tauto]). destruct X as (X1 & X2). apply Z.eqb_neq in X1, X2. rewrite X1, X2. reflexivity.
Qed.
Theorem C78_mapFrom_none : forall h, exists m h', MapFrom [] h = (Some (CMap TyString TyVar (Some m)), h') /\ (length (maps h) <= m)%nat /\ arrs h' = arrs h /\ CLen (CMap TyString TyVar (Some m)) h' = (Some (CInt 0), h').
Proof. intro h. eexists _, _. split; [reflexivity|]. split; [apply Nat.le_refl|]. split; [reflexivity|]. cbn. unfold entries. cbn. rewrite app_nth2, Nat.sub_diag by lia. reflexivity. Qed.

(** m = mkmap(mapOf("float", "int")); set(m, nan, 1): get(m, nan) is undefined, and len(m) is 1, then 2 *)
Example nan_key : forall g, exists h vs, reached g h vs /\ In (CMap TyFloat TyInt (Some O)) vs /\ In (CFloat S754_nan) vs /\ CLen (CMap TyFloat TyInt (Some O)) h = (Some (CInt 1), h) /\ CGet (CMap TyFloat TyInt (Some O)) (CFloat S754_nan) h = (Some CUndef, h) /\
  exists h', CSet (CMap TyFloat TyInt (Some O)) [CFloat S754_nan; CInt 1] h = (Some tt, h') /\ CLen (CMap TyFloat TyInt (Some O)) h' = (Some (CInt 2), h') /\ CGet (CMap TyFloat TyInt (Some O)) (CFloat S754_nan) h' = (Some CUndef, h').
Proof.
  intro g. eexists _, _. split.
  - eapply (r_some g _ _ (KSet (CMap TyFloat TyInt (Some O)) [CFloat S754_nan; CInt 1])); [eapply (r_some g _ _ (KMkmap (CType (TyMap TyFloat TyInt)))); [eapply (r_some g _ _ (KMapOf (CStr (s2b "float")) (CStr (s2b "int")))); [apply (r_consts g _ _ [CStr (s2b "float"); CStr (s2b "int"); CFloat S754_nan; CInt 1] (r_start g)); repeat constructor|..]|..]|..];
      first [reflexivity|intros x H; cbn in H |- *; tauto].
  - cbn. repeat split; auto 8. eexists. repeat split; reflexivity.
Qed.
Theorem C78_nan_refuted : ~ (forall g h vs k v m key x h', reached g h vs -> In (CMap k v m) vs -> In key vs -> x <> CNil -> CSet (CMap k v m) [key; x] h = (Some tt, h') -> CGet (CMap k v m) key h' = (Some x, h')).
Proof.
  intro H. destruct (nan_key (fun _ _ n => n)) as (h & vs & R & A & B & _ & _ & h' & E & _ & F). assert (X : CInt 1 <> CNil) by discriminate. specialize (H _ _ _ _ _ _ _ _ _ R A B X E). rewrite F in H. discriminate H.
Qed.
(** a = slice("string:int", 1): get(a, 0) is a nil map, for which get is undefined and set panics *)
Example nil_map : forall g, exists h vs, reached g h vs /\ In (CMap TyString TyInt None) vs /\ In (CStr (s2b "x")) vs /\ CGet (CMap TyString TyInt None) (CStr (s2b "x")) h = (Some CUndef, h) /\ CSet (CMap TyString TyInt None) [CStr (s2b "x"); CInt 0] h = (None, h).
Proof.
  intro g. eexists _, _. split.
  - eapply (r_some g _ _ (KGet (CSlice (TyMap TyString TyInt) 0 0 1 1) (CInt 0))); [eapply (r_some g _ _ (KSlice (CStr (s2b "string:int")) [CInt 1])); [apply (r_consts g _ _ [CStr (s2b "string:int"); CInt 1; CInt 0; CStr (s2b "x")] (r_start g)); repeat constructor|..]|..];
      first [reflexivity|intros x H; cbn in H |- *; tauto].
  - cbn. repeat split; auto 8.
Qed.
(** {"a": 1, "b": 2.5, "a": 3}: of type map[string]float64, and get(m, "a") is 3.0 *)
Example map_last : exists m h', MapFrom [CStr (s2b "a"); CInt 1; CStr (s2b "b"); CFloat (f_of_int 2); CStr (s2b "a"); CInt 3] empty_heap = (Some (CMap TyString TyFloat (Some m)), h') /\ CGet (CMap TyString TyFloat (Some m)) (CStr (s2b "a")) h' = (Some (CFloat (f_of_int 3)), h').
Proof.
  destruct (C78_mapFrom empty_heap [CStr (s2b "a"); CInt 1; CStr (s2b "b"); CFloat (f_of_int 2); CStr (s2b "a"); CInt 3] TyString) as (m & h' & E & _ & _ & G & _); [discriminate|reflexivity|left; split; reflexivity|].
  exists m, h'. split; [exact E|]. refine (eq_trans (G (CStr (s2b "a")) _) _); [|reflexivity]. split; [split; [discriminate|right; reflexivity]|split; intros; discriminate].
Qed.
(** a = [1, 2, 3]; b = a[1:]; set(b, 0, 7); c = append(b, 8): a is [1, 7, 3] and c is [7, 3, 8], in a new array *)
Example slices : forall g, exists h, elems h (CSlice TyInt 0 0 3 3) = [CInt 1; CInt 7; CInt 3] /\ elems h (CSlice TyInt 0 1 2 2) = [CInt 7; CInt 3] /\
  (exists c, elems h (CSlice TyInt 1 0 3 c) = [CInt 7; CInt 3; CInt 8]) /\ exists vs, reached g h vs.
Proof.
  intro g. assert (R : exists h vs, reached g h vs /\ h = mkHeap [[CInt 1; CInt 7; CInt 3]; [CInt 7; CInt 3; CInt 8] ++ repeat (CInt 0) (Nat.max 3 (g TyInt 2%nat 3%nat) - 3)] []).
  { eexists _, _. split.
    - eapply (r_some g _ _ (KAppend (CSlice TyInt 0 1 2 2) [CInt 8])); [eapply (r_some g _ _ (KSet (CSlice TyInt 0 1 2 2) [CInt 0; CInt 7])); [eapply (r_some g _ _ (KSub (CSlice TyInt 0 0 3 3) (CInt 1) CNil)); [eapply (r_some g _ _ (KSliceFrom [CInt 1; CInt 2; CInt 3])); [apply (r_consts g _ _ [CInt 1; CInt 2; CInt 3; CInt 0; CInt 7; CInt 8; CNil] (r_start g)); repeat constructor|..]|..]|..]|..];
        first [reflexivity|intros x H; cbn in H |- *; tauto].
    - cbn. destruct (g TyInt 2%nat 3%nat) as [|[|[|n]]]; try reflexivity. replace (S (S (S n)) - 3)%nat with n by lia. replace (S (S (S n)) - 2)%nat with (S n) by lia. reflexivity. }
  destruct R as (h & vs & R & E). exists h. subst h. split; [reflexivity|]. split; [reflexivity|]. split; [|exists vs; exact R]. exists (Nat.max 3 (g TyInt 2%nat 3%nat)). reflexivity.
Qed.

Print Assumptions C77_reached.
Print Assumptions C77_typed.
Print Assumptions C77_get.
Print Assumptions C77_set.
Print Assumptions C77_set_effect.
Print Assumptions C77_set_pairs.
Print Assumptions C77_sub.
Print Assumptions C77_sub_refused.
Print Assumptions C77_sub_string.
Print Assumptions C77_append.
Print Assumptions C77_append_full.
Print Assumptions C77_append_refused.
Print Assumptions C77_append_other_refuted.
Print Assumptions C77_set_nil_refuted.
Print Assumptions C77_slice.
Print Assumptions C77_zero.
Print Assumptions C77_slice_refused.
Print Assumptions C77_sliceFrom.
Print Assumptions C78_typed.
Print Assumptions C78_keys.
Print Assumptions C78_get.
Print Assumptions C78_set.
Print Assumptions C78_set_effect.
Print Assumptions C78_delete.
Print Assumptions C78_len.
Print Assumptions C78_mkmap.
Print Assumptions C78_types.
Print Assumptions C78_mapFrom.
Print Assumptions C78_mapFrom_refused.
Print Assumptions C78_nan_refuted.
