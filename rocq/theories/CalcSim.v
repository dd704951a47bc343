(** Two ways to calculate, related on literals, operators and functions, are related on all expressions. *)
From Verif Require Import Base Token CalcSpec.
Local Open Scope list_scope. Local Open Scope Z_scope.

Section Sim.
Context {A B : Type}.
Variables (lits : list (Z * (bytes -> option A))) (muls adds : list (Z * (A -> A -> option A))) (neg : A -> option A) (call : bytes -> list A -> option A).
Variables (flits : list (Z * (bytes -> option B))) (fmuls fadds : list (Z * (B -> B -> option B))) (fneg : B -> option B) (fcall : bytes -> list B -> option B).
Variable P : token -> Prop.
Variable rel : option A -> option B -> Prop.
Definition sim2 (ops : list (Z * (A -> A -> option A))) (fops : list (Z * (B -> B -> option B))) : Prop :=
  forall k op, In (k, op) ops -> exists fop, In (k, fop) fops /\ forall a b a' b', rel a a' -> rel b b' -> rel (opt2 op a b) (opt2 fop a' b').
Hypothesis Hlit : forall k op t, In (k, op) lits -> kind_is k t -> P t -> exists k' fop, In (k', fop) flits /\ kind_is k' t /\ rel (op (tlit t)) (fop (tlit t)).
Hypothesis Hmul : sim2 muls fmuls.
Hypothesis Hadd : sim2 adds fadds.
Hypothesis Hneg : forall a a', rel a a' -> rel (opt1 neg a) (opt1 fneg a').
Hypothesis Hcall : forall f vs vs', Forall2 rel vs vs' -> rel (callv call f vs) (callv fcall f vs').
Notation Vf := (v_doc flits fmuls fadds fneg fcall).
Scheme vf_ind := Minimality for v_factor Sort Prop
with vm_ind := Minimality for v_muls Sort Prop
with vt_ind := Minimality for v_term Sort Prop
with va_ind := Minimality for v_adds Sort Prop
with vd_ind := Minimality for v_doc Sort Prop
with vmo_ind := Minimality for v_more Sort Prop.
Lemma sim : forall ts r, v_doc lits muls adds neg call ts r -> Forall P ts -> exists r', Vf ts r' /\ rel r r'.
Proof.
  apply (vd_ind A lits muls adds neg call
    (fun ts r => Forall P ts -> exists r', v_factor flits fmuls fadds fneg fcall ts r' /\ rel r r')
    (fun a ts r => Forall P ts -> forall a', rel a a' -> exists r', v_muls flits fmuls fadds fneg fcall a' ts r' /\ rel r r')
    (fun ts r => Forall P ts -> exists r', v_term flits fmuls fadds fneg fcall ts r' /\ rel r r')
    (fun a ts r => Forall P ts -> forall a', rel a a' -> exists r', v_adds flits fmuls fadds fneg fcall a' ts r' /\ rel r r')
    (fun ts r => Forall P ts -> exists r', v_doc flits fmuls fadds fneg fcall ts r' /\ rel r r')
    (fun ts rs => Forall P ts -> exists rs', v_more flits fmuls fadds fneg fcall ts rs' /\ Forall2 rel rs rs')).
  - intros k f t Hi Hk HP. inversion HP; subst. destruct (Hlit k f t Hi Hk) as (k' & fop & I' & K' & R); [assumption|]. eexists. split; [eapply V_lit; eassumption|exact R].
  - intros t ts a Hk _ IH HP. inversion HP; subst. destruct (IH ltac:(assumption)) as (a' & V & R). eexists. split; [apply V_neg; eassumption|apply Hneg; exact R].
  - intros t ts a Hk _ IH HP. inversion HP; subst. destruct (IH ltac:(assumption)) as (a' & V & R). eexists. split; [apply V_pos; eassumption|exact R].
  - intros t1 ts t2 a K1 _ IH K2 HP. inversion HP as [|? ? _ HP']; subst. apply Forall_app in HP'. destruct (IH (proj1 HP')) as (a' & V & R). eexists. split; [apply V_par; eassumption|exact R].
  - intros t t1 t2 K K1 K2 _. eexists. split; [apply V_call0; assumption|apply Hcall; constructor].
  - intros t t1 ts a ts' rs t2 K K1 _ IH1 _ IH2 K2 HP. inversion HP as [|? ? _ HP1]; subst. inversion HP1 as [|? ? _ HP2]; subst. apply Forall_app in HP2. destruct HP2 as (HP2 & _). apply Forall_app in HP2.
    destruct (IH1 (proj1 HP2)) as (a' & V & R). destruct (IH2 (proj2 HP2)) as (rs' & V2 & R2). eexists. split; [apply V_call; eassumption|apply Hcall; constructor; assumption].
  - intros a _ a' R. eexists. split; [constructor|exact R].
  - intros a t f ts b ts' r Hi _ IH1 _ IH2 HP a' R. inversion HP as [|? ? _ HP1]; subst. apply Forall_app in HP1. destruct (Hmul _ _ Hi) as (fop & I' & S). destruct (IH1 (proj1 HP1)) as (b' & V & R1).
    destruct (IH2 (proj2 HP1) _ (S _ _ _ _ R R1)) as (r' & V2 & R2). exists r'. split; [eapply V_mul; eassumption|exact R2].
  - intros ts a ts' r _ IH1 _ IH2 HP. apply Forall_app in HP. destruct (IH1 (proj1 HP)) as (a' & V & R). destruct (IH2 (proj2 HP) _ R) as (r' & V2 & R2). exists r'. split; [eapply V_term; eassumption|exact R2].
  - intros a _ a' R. eexists. split; [constructor|exact R].
  - intros a t f ts b ts' r Hi _ IH1 _ IH2 HP a' R. inversion HP as [|? ? _ HP1]; subst. apply Forall_app in HP1. destruct (Hadd _ _ Hi) as (fop & I' & S). destruct (IH1 (proj1 HP1)) as (b' & V & R1).
    destruct (IH2 (proj2 HP1) _ (S _ _ _ _ R R1)) as (r' & V2 & R2). exists r'. split; [eapply V_add; eassumption|exact R2].
  - intros ts a ts' r _ IH1 _ IH2 HP. apply Forall_app in HP. destruct (IH1 (proj1 HP)) as (a' & V & R). destruct (IH2 (proj2 HP) _ R) as (r' & V2 & R2). exists r'. split; [eapply V_doc; eassumption|exact R2].
  - intros _. exists []. split; constructor.
  - intros t ts a ts' rs K _ IH1 _ IH2 HP. inversion HP as [|? ? _ HP1]; subst. apply Forall_app in HP1. destruct (IH1 (proj1 HP1)) as (a' & V & R). destruct (IH2 (proj2 HP1)) as (rs' & V2 & R2).
    exists (a' :: rs'). split; [apply V_more; assumption|constructor; assumption].
Qed.
End Sim.

