(** Specification for C77 and C78: what slices and maps hold, where, and which values programs can have. *)
From Coq Require Import String SpecFloat.
From Verif Require Import Base Token Utf8 Scanner Tokenize Grammar Matcher Compiler Interp QValue QCont.

(** ** Slices *)
(** the elements of a slice, in order *)
Definition elems (h : heap) (s : cv) : list cv := match s with CSlice _ a off len _ => firstn len (skipn off (arr h a)) | _ => [] end.
Definition elem (h : heap) (s : cv) (i : nat) : cv := nth i (elems h s) CNil.
Definition slen (s : cv) : nat := match s with CSlice _ _ _ len _ => len | _ => O end.
Definition scap (s : cv) : nat := match s with CSlice _ _ _ _ cap => cap | _ => O end.
(** where the element at [i] of a slice is stored: the array and the place in it *)
Definition place (s : cv) (i : nat) : nat * nat := match s with CSlice _ a off _ _ => (a, (off + i)%nat) | _ => (O, O) end.
Definition same_place (p q : nat * nat) : bool := ((fst p =? fst q) && (snd p =? snd q))%nat.
(** a slice all of whose storage is new *)
Definition fresh (h : heap) (s : cv) : Prop := match s with CSlice _ a _ _ _ => (length (arrs h) <= a)%nat | _ => False end.

(** ** Types *)
Definition has_type (v : cv) (t : ty) : Prop := t = TyVar \/ dyn v = Some t.
(** what can be stored where elements have type [t], as it is *)
Definition storable (v : cv) (t : ty) : Prop := v <> CNil /\ has_type v t.
(** what appending [v] to a slice of [t] stores *)
Definition stored (t : ty) (v : cv) : option cv :=
  match t, v with
  | TyVar, _ => Some v
  | TyFloat, CFloat _ => Some v
  | TyFloat, CInt z => Some (CFloat (f_of_int z))
  | TyFloat, _ => None
  | _, CNil => Some (zero t)
  | _, _ => match dyn v with Some d => if ty_eqb d t then Some v else None | None => None end
  end.

(** ** Storage that programs can have *)
(** the element type and length of each array, the key and element types of each map *)
Record typing : Type := mkTyping { t_arrs : list (ty * nat); t_maps : list (ty * ty) }.
(** a value that refers only to such storage, with the right type and within its bounds *)
Definition val_in (T : typing) (v : cv) : Prop :=
  match v with
  | CSlice t a off len cap => (len <= cap)%nat /\ ((0 < cap)%nat -> exists n, nth_error (t_arrs T) a = Some (t, n) /\ (off + cap <= n)%nat)
  | CMap k v (Some m) => nth_error (t_maps T) m = Some (k, v)
  | _ => True
  end.
Definition arr_in (T : typing) (e : ty * nat) (l : list cv) : Prop := length l = snd e /\ Forall (fun v => has_type v (fst e) /\ val_in T v) l.
(** no two keys of a map are equal *)
Inductive distinct : list (cv * cv) -> Prop :=
| d_nil : distinct []
| d_cons : forall k v l, Forall (fun e => key_eq k (fst e) = false) l -> distinct l -> distinct ((k, v) :: l).
Definition map_in (T : typing) (e : ty * ty) (l : list (cv * cv)) : Prop :=
  distinct l /\ Forall (fun p => has_type (fst p) (fst e) /\ val_in T (fst p) /\ has_type (snd p) (snd e) /\ val_in T (snd p)) l.
Definition heap_in (T : typing) (h : heap) : Prop := Forall2 (arr_in T) (t_arrs T) (arrs h) /\ Forall2 (map_in T) (t_maps T) (maps h).
(** storage and values that fit together *)
Definition sound (h : heap) (vs : list cv) : Prop := exists T, heap_in T h /\ Forall (val_in T) vs.

(** [x] is a bound, or nil for [d] *)
Definition bound (d : nat) (x : cv) (n : nat) : Prop := (x = CNil /\ n = d) \/ x = CInt (Z.of_nat n).
(** up to where in its array appending [n] values writes: with floats, which are appended one by one, what there is of the
    capacity is used even if not all of them fit *)
Definition written (t : ty) (len cap n : nat) : nat := if (len + n <=? cap)%nat then (len + n)%nat else match t with TyFloat => cap | _ => len end.
(** nothing that was there has changed *)
Definition others (h h' : heap) : Prop := maps h' = maps h /\ forall s, sound h [s] -> elems h' s = elems h s.

(** ** Types of what is made from arguments *)
Definition is_int (v : cv) : bool := match v with CInt _ => true | _ => false end.
Definition is_number (v : cv) : bool := match v with CInt _ | CFloat _ => true | _ => false end.
Definition is_string (v : cv) : bool := match v with CStr _ => true | _ => false end.
Definition common (l : list cv) : ty := if forallb is_int l then TyInt else if forallb is_number l then TyFloat else if forallb is_string l then TyString else TyVar.
Definition conv (t : ty) (v : cv) : cv := match t, v with TyFloat, CInt z => CFloat (f_of_int z) | _, _ => v end.
(** a type, or the name of one *)
Definition names (typ : cv) (t : ty) : Prop := typ = CType t \/ exists n, typ = CStr n /\ In (n, t) builtinTypes.
(** what slice() is given for length and capacity; more is ignored *)
Inductive sizes : list cv -> Z -> Z -> Prop :=
| z_none : sizes [] 0 0
| z_len : forall n, sizes [CInt n] n n
| z_both : forall n c l, sizes (CInt n :: CInt c :: l) n c.

(** ** Maps *)
(** a key that a map with keys of type [k] can have *)
Definition key_for (k : ty) (key : cv) : Prop := storable key k /\ (forall t a off len cap, key <> CSlice t a off len cap) /\ (forall a b m, key <> CMap a b m).
(** the last of the values given for a key, but for undefined *)
Fixpoint last_of (vt : ty) (key : cv) (ps : list (cv * cv)) (d : cv) : cv :=
  match ps with
  | [] => d
  | (a, b) :: ps' => last_of vt key ps' (match b with CUndef => d | _ => if key_eq key a then conv vt b else d end)
  end.

(** ** Histories *)
Inductive call : Type :=
| KMkmap (t : cv) | KMapOf (k v : cv) | KSliceOf (t : cv) | KMapFrom (args : list cv) | KDelete (m k : cv) | KSet (m : cv) (args : list cv)
| KGet (m k : cv) | KLen (a : cv) | KCap (a : cv) | KSub (a i j : cv) | KAppend (a : cv) (vals : list cv) | KSlice (t : cv) (args : list cv) | KSliceFrom (args : list cv).
Definition args_of (c : call) : list cv :=
  match c with
  | KMkmap t | KSliceOf t => [t] | KMapOf k v => [k; v] | KMapFrom l | KSliceFrom l => l | KDelete m k | KGet m k => [m; k]
  | KSet m l | KAppend m l | KSlice m l => m :: l | KLen a | KCap a => [a] | KSub a i j => [a; i; j]
  end.
Definition nothing (m : M unit) : M cv := m ;;; ret CNil.
Definition does (growcap : ty -> nat -> nat -> nat) (c : call) : M cv :=
  match c with
  | KMkmap t => Mkmap t | KMapOf k v => MapOf k v | KSliceOf t => SliceOf t | KMapFrom l => MapFrom l | KDelete m k => nothing (Delete m k)
  | KSet m l => nothing (CSet m l) | KGet m k => CGet m k | KLen a => CLen a | KCap a => CCap a | KSub a i j => CSub a i j
  | KAppend a l => CAppend growcap a l | KSlice t l => CMkSlice t l | KSliceFrom l => CSliceFrom growcap l
  end.
(** a value a program can have to begin with *)
Definition constant (v : cv) : Prop := match v with CSlice _ _ _ _ _ | CMap _ _ _ => False | _ => True end.
(** the storage and the values after any calls whose arguments are constants or values had before, whether or not they panicked *)
Inductive reached (growcap : ty -> nat -> nat -> nat) : heap -> list cv -> Prop :=
| r_start : reached growcap empty_heap []
| r_constant : forall h vs v, reached growcap h vs -> constant v -> reached growcap h (v :: vs)
| r_call : forall h vs c r h', reached growcap h vs -> incl (args_of c) vs -> does growcap c h = (r, h') ->
    reached growcap h' (match r with Some v => v :: vs | None => vs end).
