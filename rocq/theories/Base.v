(** Common definitions: bytes are [Z], texts are [list Z]. *)
From Coq Require Export List ZArith Lia Bool Arith.
Export ListNotations.
Open Scope Z_scope.

(** Byte strings ([]byte / string in the Go code). *)
Definition bytes := list Z.

(** Equality test on byte strings (Go's [==] on strings). *)
Fixpoint beq (a b : bytes) : bool :=
  match a, b with
  | [], [] => true
  | x :: a', y :: b' => (x =? y) && beq a' b'
  | _, _ => false
  end.

Lemma beq_eq : forall a b, beq a b = true <-> a = b.
Proof.
  induction a as [|x a IH]; destruct b as [|y b]; simpl; split; intro H;
    try congruence; try reflexivity.
  - apply andb_true_iff in H. destruct H as [H1 H2].
    apply Z.eqb_eq in H1. apply IH in H2. congruence.
  - inversion H; subst. rewrite Z.eqb_refl. simpl. apply IH. reflexivity.
Qed.

Lemma beq_refl : forall a, beq a a = true.
Proof. intro a. apply beq_eq. reflexivity. Qed.

Lemma beq_neq : forall a b, beq a b = false <-> a <> b.
Proof.
  intros a b. destruct (beq a b) eqn:E; split; intro H.
  - discriminate.
  - exfalso. apply H. apply beq_eq. exact E.
  - intro Hab. apply beq_eq in Hab. congruence.
  - reflexivity.
Qed.

(** [string(ch)] for a single ASCII byte etc. is written out as a list; ASCII codes used in the model. *)
Definition sub (src : bytes) (i j : nat) : bytes := firstn (j - i) (skipn i src).

Lemma skipn_skipn' : forall (A : Type) (n m : nat) (l : list A),
  skipn n (skipn m l) = skipn (m + n) l.
Proof.
  intros A n m. revert n. induction m as [|m IH]; intros n l; simpl.
  - reflexivity.
  - destruct l as [|x l]; simpl.
    + destruct n; reflexivity.
    + apply IH.
Qed.

Lemma skipn_len_lt : forall (A : Type) (n : nat) (l : list A),
  (n < length l)%nat -> exists x r, skipn n l = x :: r.
Proof.
  intros A n. induction n as [|n IH]; intros l H; destruct l as [|x l]; simpl in *; try lia.
  - eauto.
  - apply IH. lia.
Qed.

Lemma skipn_nil_iff : forall (A : Type) (n : nat) (l : list A),
  skipn n l = [] <-> (length l <= n)%nat.
Proof.
  intros A n l. split; intro H.
  - destruct (le_lt_dec (length l) n) as [|Hlt]; [assumption|].
    destruct (skipn_len_lt A n l Hlt) as (x & r & E). congruence.
  - apply skipn_all2. exact H.
Qed.

Lemma sub_app : forall src i j k, (i <= j)%nat -> (j <= k)%nat ->
  sub src i k = sub src i j ++ sub src j k.
Proof.
  intros src i j k Hij Hjk. unfold sub.
  replace (k - i)%nat with ((j - i) + (k - j))%nat by lia.
  replace (skipn j src) with (skipn (j - i) (skipn i src)).
  - generalize (skipn i src) as l. generalize (j - i)%nat as a. generalize (k - j)%nat as b.
    intros b a. induction a as [|a IH]; intro l; simpl.
    + reflexivity.
    + destruct l as [|x l]; simpl.
      * destruct b; reflexivity.
      * f_equal. apply IH.
  - rewrite skipn_skipn'. f_equal. lia.
Qed.

Lemma sub_length : forall src i j, (j <= length src)%nat ->
  length (sub src i j) = (j - i)%nat.
Proof.
  intros. unfold sub. rewrite firstn_length, skipn_length. lia.
Qed.

Lemma sub_self : forall src i, sub src i i = [].
Proof. intros. unfold sub. rewrite Nat.sub_diag. reflexivity. Qed.

Lemma sub_all : forall src, sub src 0 (length src) = src.
Proof. intros. unfold sub. rewrite Nat.sub_0_r. simpl. apply firstn_all. Qed.
