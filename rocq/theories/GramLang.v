(** The texts a grammar can consume, without order of choice: an upper bound of what it matches. *)
From Verif Require Import Base Token Grammar PegSpec.
Local Open Scope list_scope.

Inductive star (P : list token -> Prop) : list token -> Prop :=
| star_nil : star P []
| star_cons : forall a b, P a -> star P b -> star P (a ++ b).
Definition cat (P Q : list token -> Prop) (ts : list token) : Prop := exists a b, ts = a ++ b /\ P a /\ Q b.
Definition hd_not (k : Z) (ts : list token) : Prop := hd_error (map tkind ts) <> Some k.

Section Lang.
Context {A T : Type}.
Notation G := (gr A T).
Variable F : bytes -> list token -> Prop.
Fixpoint lang (g : G) (ts : list token) {struct g} : Prop :=
  match g with
  | GNil => False
  | GTok k => exists t, ts = [t] /\ tok_ok k t
  | GTrue | GPeek _ | GNot _ | GEOF => ts = []
  | GAnd gs =>
      (fix seq (gs : list G) (ts : list token) {struct gs} : Prop :=
         match gs with
         | [] => ts = []
         | g' :: gs' =>
             match g' with
             | GNil => seq gs' ts
             | GNot (GTok k) => hd_not k ts /\ seq gs' ts
             | _ => cat (lang g') (seq gs') ts
             end
         end) gs ts
  | GOr gs => (fix alt (gs : list G) : Prop := match gs with [] => False | g' :: gs' => lang g' ts \/ alt gs' end) gs
  | GRep0 _ g' => star (lang g') ts
  | GRep1 _ g' => cat (lang g') (star (lang g')) ts
  | GRep01 _ g' => ts = [] \/ lang g' ts
  | GList _ a b l0 => (l0 = true /\ ts = []) \/ cat (lang a) (match b with GTok _ => star (cat (lang b) (lang a)) | _ => fun _ => True end) ts   (* other separators: any text *)
  | GVar v => F v ts
  | GNamed _ g' | GAct g' _ | GTrans g' _ => lang g' ts
  end.
Fixpoint lseq (gs : list G) (ts : list token) {struct gs} : Prop :=
  match gs with
  | [] => ts = []
  | g' :: gs' =>
      match g' with
      | GNil => lseq gs' ts
      | GNot (GTok k) => hd_not k ts /\ lseq gs' ts
      | _ => cat (lang g') (lseq gs') ts
      end
  end.
Fixpoint lalt (gs : list G) (ts : list token) {struct gs} : Prop := match gs with [] => False | g' :: gs' => lang g' ts \/ lalt gs' ts end.
Lemma lang_and : forall gs ts, lang (GAnd gs) ts = lseq gs ts.
Proof. induction gs as [|g gs IH]; intro ts; reflexivity. Qed.
Lemma lang_or : forall gs ts, lang (GOr gs) ts = lalt gs ts.
Proof. induction gs as [|g gs IH]; intro ts; [reflexivity|]. cbn [lalt]. rewrite <- IH. reflexivity. Qed.
Lemma lseq_cons : forall g gs a b, g <> GNil -> (forall k, g = GNot (GTok k) -> hd_not k b) -> lang g a -> lseq gs b -> lseq (g :: gs) (a ++ b).
Proof.
  intros g gs a b N H Ha Hb. assert (C : cat (lang g) (lseq gs) (a ++ b)) by (exists a, b; auto).
  destruct g; try exact C; [contradiction|]. cbn in Ha. subst a. destruct g; try exact C. split; [apply H; reflexivity|exact Hb].
Qed.

Lemma lseq_inv : forall g gs ts, match g with GNil | GNot _ => False | _ => True end -> lseq (g :: gs) ts -> cat (lang g) (lseq gs) ts.
Proof. intros g gs ts H X. destruct g; try contradiction; exact X. Qed.

Variable env : bytes -> option G.
Hypothesis closed : forall v g ts, env v = Some g -> lang g ts -> F v ts.
Lemma firstn_add : forall (l : list token) n m, firstn (n + m) l = firstn n l ++ firstn m (skipn n l).
Proof. induction l as [|x l IH]; intros [|n] m; cbn; try reflexivity; [rewrite firstn_nil; reflexivity|]. rewrite IH. reflexivity. Qed.
Lemma shift_ok : forall n o m l, shift n o = OOk (A := A) (T := T) m l -> exists k, o = OOk k l /\ m = (n + k)%nat.
Proof. intros n [k l'| |] m l; cbn; intros [= <- <-]; eauto. Qed.
Lemma not_tok : forall k src n l tr, peg env (GNot (GTok k)) src (OOk n l) tr -> n = 0%nat /\ forall t r, src = t :: r -> tkind t <> k.
Proof.
  intros k src n l tr H. inversion H as [| | | | |g' s' o tr' H' E1 E2 Eo| | | | | | | | | | | | | | | | | | | | |]; subst. destruct o; try discriminate. injection Eo as <- _. split; [reflexivity|].
  inversion H'; subst. intros t r -> E. match goal with X : forall t0 r0, _ -> ~ tok_ok _ _ |- _ => eapply X; [reflexivity|left; exact E] end.
Qed.
(** what is consumed is in the language *)
Lemma lang_sound :
  (forall g src o tr, peg env g src o tr -> forall n l, o = OOk n l -> lang g (firstn n src)) /\
  (forall p src0 gs ff src o tr, peg_seq env p src0 gs ff src o tr -> forall n l, o = OOk n l -> lseq gs (firstn n src)) /\
  (forall gs src o tr, peg_alt env gs src o tr -> forall n l, o = OOk n l -> lalt gs (firstn n src)) /\
  (forall g src r tr, peg_rep env g src r tr -> forall c n, r = inl (c, n) -> star (lang g) (firstn n src)).
Proof.
  apply (peg_ind4 A T env); intros; try discriminate; try contradiction;
    try match goal with H : ~ is_ok ?o, E : ?o = OOk _ _ |- _ => rewrite E in H; exfalso; apply H; exact Logic.I end.
  - injection H as <- <-. cbn. eauto.
  - injection H as <- <-. reflexivity.
  - destruct o; try discriminate. injection H0 as <- <-. reflexivity.
  - destruct o; try discriminate. injection H0 as <- <-. reflexivity.
  - injection H as <- <-. reflexivity.
  - rewrite lang_and. destruct o; try discriminate. injection H0 as <- <-. eapply H; reflexivity.
  - rewrite lang_or. destruct o; try discriminate. injection H0 as <- <-. eapply H; reflexivity.
  - injection H0 as <- <-. cbn. eapply H; reflexivity.
  - injection H1 as <- <-. cbn. rewrite firstn_add. exists (firstn n src), (firstn m (skipn n src)). split; [reflexivity|]. split; [eapply H; reflexivity|eapply H0; reflexivity].
  - destruct o; try discriminate; injection H0 as <- <-; [right; eapply H; reflexivity|left; reflexivity].
  - injection H1 as <- <-. cbn. right. rewrite firstn_add. exists (firstn n src), (firstn m (skipn n src)). split; [reflexivity|]. split; [eapply H; reflexivity|].
    pose proof (H0 _ _ eq_refl) as S. assert (N : a <> GNil) by (intros ->; inversion p). clear - S N. destruct b; try exact Logic.I.
    assert (Q : forall ts, lang (GAnd [GTok kind; a]) ts -> cat (lang (GTok kind)) (lang a) ts).
    { intros ts X. rewrite lang_and in X. change (cat (lang (GTok kind)) (lseq [a]) ts) in X. destruct X as (x & y & -> & Hx & Hy). exists x, y. split; [reflexivity|]. split; [exact Hx|].
      assert (C : cat (lang a) (fun z => z = []) y -> lang a y) by (intros (u & v & -> & Hu & ->); rewrite app_nil_r; exact Hu).
      destruct a; try exact (C Hy); [contradiction|]. destruct a; try exact (C Hy). destruct Hy as (_ & ->). reflexivity. }
    induction S; [constructor|constructor; auto].
  - injection H0 as <- <-. left. auto.
  - destruct o; try discriminate. injection H0 as <- <-. cbn. eapply closed; [eassumption|]. eapply H. reflexivity.
  - destruct o; try discriminate. injection H0 as <- <-. cbn. eapply H. reflexivity.
  - injection H0 as <- <-. cbn. eapply H. reflexivity.
  - cbn. eapply H. eassumption.
  - injection H as <- <-. reflexivity.
  - cbn. eapply H. eassumption.
  - apply shift_ok in H1. destruct H1 as (k & -> & ->). rewrite firstn_add. apply lseq_cons; [assumption| |eapply H; reflexivity|eapply H0; reflexivity].
    intros k0 ->. match goal with X : peg env (GNot _) _ _ _ |- _ => destruct (not_tok _ _ _ _ _ X) as (-> & Hk) end. cbn [skipn]. intro E. destruct src as [|t r]; [rewrite firstn_nil in E; discriminate|].
    destruct k; [discriminate|]. cbn in E. injection E as E. exact (Hk t r eq_refl E).
  - injection H0 as <- <-. left. eapply H. reflexivity.
  - right. eapply H0. eassumption.
  - injection H0 as <- <-. constructor.
  - injection H1 as <- <-. rewrite firstn_add. constructor; [eapply H; reflexivity|eapply H0; reflexivity].
Qed.
Lemma lang_all : forall g src l tr, peg env g src (OOk (length src) l) tr -> lang g src.
Proof. intros g src l tr H. pose proof (proj1 lang_sound g src _ tr H _ _ eq_refl) as X. rewrite firstn_all in X. exact X. Qed.
End Lang.
