(** Specification of extraction: the history of insertions, and the document it means. *)
From Verif Require Import Base Token Grammar PegSpec Compiler Extractor.

Section Spec.
Context {X PV : Type}.
(** A history: values and sub-documents, oldest first; [arr]: the mark names an array. *)
Inductive item : Type := Leaf (tag : bytes) (v : X) (arr : bool) | Sub (tag : bytes) (arr : bool) (its : list item).

(** An entry of a document: a value or a sub-document. *)
Record entry : Type := mkEn { en_tag : bytes; en_arr : bool; en_val : X + jmap X }.
(** the entries from the oldest one with tag [t] on *)
Fixpoint from (t : bytes) (es : list entry) : list entry :=
  match es with [] => [] | e :: es' => if beq (en_tag e) t then es else from t es' end.
(** the values (sub-documents) of array [t] at the start of [es], up to the first other entry *)
Fixpoint leaf_run (t : bytes) (es : list entry) : list X :=
  match es with
  | mkEn t' true (inl x) :: es' => if beq t' t then x :: leaf_run t es' else []
  | _ => []
  end.
Fixpoint node_run (t : bytes) (es : list entry) : list (jmap X) :=
  match es with
  | mkEn t' true (inr m) :: es' => if beq t' t then m :: node_run t es' else []
  | _ => []
  end.
(** What the document has for [t]: decided by the oldest entry with that tag. *)
Definition value (t : bytes) (es : list entry) : option (jval X) :=
  match from t es with
  | [] => None
  | mkEn _ false (inl x) :: _ => Some (JVal x)
  | mkEn _ false (inr m) :: _ => Some (JMap m)
  | mkEn _ true (inl x) :: _ => Some (JVals (leaf_run t (from t es)))
  | mkEn _ true (inr m) :: _ => Some (JMaps (node_run t (from t es)))
  end.
(** the tags, each once (in an order that means nothing) *)
Fixpoint uniq (l : list bytes) : list bytes := match l with [] => [] | x :: l' => x :: filter (fun y => negb (beq x y)) (uniq l') end.
Definition keys (es : list entry) : list bytes := uniq (rev (map en_tag es)).
Definition bindings (es : list entry) : list (bytes * jval X) := flat_map (fun t => match value t es with Some v => [(t, v)] | None => [] end) (keys es).
Definition document (es : list entry) : jmap X := match es with [] => None | _ => Some (bindings es) end.
Fixpoint entry_of (i : item) : entry :=
  match i with
  | Leaf t v a => mkEn t a (inl v)
  | Sub t a its => mkEn t a (inr (document (map entry_of its)))
  end.
(** the document of a history *)
Definition doc_of (its : list item) : jmap X := document (map entry_of its).

(** What a match inserts, from its trace: a marked value by each action; a sub-document by each node that matched, nothing by one that failed. *)
Variable getValue : bytes -> bytes -> X + PV.
Inductive inserted : list (ev (A := leafmark) (T := nodemark)) -> list item -> Prop :=
| In_nil : inserted [] []
| In_leaf : forall m t ts l tr v its, getValue (lf_typ m) (tlit t) = inl v -> inserted tr its ->
    inserted (EvAct m (t :: ts) l :: tr) (Leaf (lf_tag m) v (lf_arr m) :: its)
| In_node : forall m tr1 sub tr2 its, inserted tr1 sub -> inserted tr2 its ->
    inserted (EvBegin m :: tr1 ++ EvEnd m true :: tr2) (Sub (nd_tag m) (nd_arr m) sub :: its)
| In_failed : forall m tr1 sub tr2 its, inserted tr1 sub -> inserted tr2 its ->
    inserted (EvBegin m :: tr1 ++ EvEnd m false :: tr2) its.
End Spec.
Arguments item : clear implicits.
Arguments entry : clear implicits.
