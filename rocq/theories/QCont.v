(** The containers of qlang programs: the functions of tpl/qlang/lib/builtin/builtin.go on slices and maps, with the
    storage that slices and maps share (Qlang.v has slices as values and leaves maps to the library; here they are references). *)
From Coq Require Import String SpecFloat.
From Verif Require Import Base Token Utf8 Scanner Tokenize Grammar Matcher Compiler Interp QValue.

(** ** Types and values *)
(** reflect.Type, as far as programs can name or build them (types/types.go:33-44, mapOf, sliceOf, type); [TyRef]: another type,
    whose values are pointers. Named types with the underlying type of another are left out. *)
Inductive ty : Type := TyInt | TyBool | TyFloat | TyString | TyByte | TyVar | TySlice (t : ty) | TyMap (k v : ty) | TyRef (n : nat).
Fixpoint ty_eqb (a b : ty) : bool :=
  match a, b with
  | TyInt, TyInt | TyBool, TyBool | TyFloat, TyFloat | TyString, TyString | TyByte, TyByte | TyVar, TyVar => true
  | TySlice t, TySlice u => ty_eqb t u
  | TyMap k v, TyMap k' v' => ty_eqb k k' && ty_eqb v v'
  | TyRef n, TyRef m => (n =? m)%nat
  | _, _ => false
  end.
(** What an interface{} can hold. A slice is a view of an array: the array, where it starts, its length and its capacity.
    A map is a reference; [None]: a nil map. *)
Inductive cv : Type :=
| CNil
| CInt (z : Z)
| CBool (b : bool)
| CFloat (f : float)
| CStr (b : bytes)
| CByte (z : Z)
| CSlice (t : ty) (a off len cap : nat)
| CMap (k v : ty) (m : option nat)
| CType (t : ty)
| CUndef                                            (* spec.Undefined, spec.go:11 *)
| CRef (t id : nat).                                (* a pointer of type [TyRef t]; 0: nil *)
(** reflect.TypeOf; None: nil has no type. [TyRef 0] is the type of types, [TyRef 1] that of spec.Undefined *)
Definition dyn (v : cv) : option ty :=
  match v with
  | CNil => None | CInt _ => Some TyInt | CBool _ => Some TyBool | CFloat _ => Some TyFloat | CStr _ => Some TyString | CByte _ => Some TyByte
  | CSlice t _ _ _ _ => Some (TySlice t) | CMap k v _ => Some (TyMap k v) | CType _ => Some (TyRef 0) | CUndef => Some (TyRef 1)
  | CRef t _ => Some (TyRef t)
  end.
(** the storage: arrays and maps, by number *)
Record heap : Type := mkHeap { arrs : list (list cv); maps : list (list (cv * cv)) }.
Definition empty_heap : heap := mkHeap [] [].

(** ** A state and panic monad; None: it panics (with what is not modelled) *)
Definition M (A : Type) : Type := heap -> option A * heap.
Definition ret {A : Type} (x : A) : M A := fun h => (Some x, h).
Definition bind {A B : Type} (m : M A) (k : A -> M B) : M B := fun h => match m h with (Some x, h') => k x h' | (None, h') => (None, h') end.
Definition panics {A : Type} : M A := fun h => (None, h).
Notation "x <-- m ;; k" := (bind m (fun x => k)) (at level 100, m at next level, right associativity).
Notation "m ;;; k" := (bind m (fun _ => k)) (at level 100, right associativity).
Definition must {A : Type} (o : option A) : M A := match o with Some x => ret x | None => panics end.

(** ** What package reflect does *)
Fixpoint upd {A : Type} (n : nat) (x : A) (l : list A) : list A :=
  match l, n with [], _ => [] | _ :: l', O => x :: l' | y :: l', S n' => y :: upd n' x l' end.
Definition arr (h : heap) (a : nat) : list cv := nth a (arrs h) [].
Definition cell (h : heap) (a i : nat) : cv := nth i (arr h a) CNil.
Definition write (a i : nat) (v : cv) : M unit := fun h => (Some tt, mkHeap (upd a (upd i v (arr h a)) (arrs h)) (maps h)).
Definition new_arr (l : list cv) : M nat := fun h => (Some (length (arrs h)), mkHeap (arrs h ++ [l]) (maps h)).
Definition entries (h : heap) (m : nat) : list (cv * cv) := nth m (maps h) [].
Definition set_entries (m : nat) (l : list (cv * cv)) : M unit := fun h => (Some tt, mkHeap (arrs h) (upd m l (maps h))).
Definition new_map (l : list (cv * cv)) : M nat := fun h => (Some (length (maps h)), mkHeap (arrs h) (maps h ++ [l])).
(** reflect.Zero(t).Interface() *)
Definition zero (t : ty) : cv :=
  match t with
  | TyInt => CInt 0 | TyBool => CBool false | TyFloat => CFloat (S754_zero false) | TyString => CStr [] | TyByte => CByte 0 | TyVar => CNil
  | TySlice t => CSlice t 0 0 0 0 | TyMap k v => CMap k v None
  | TyRef n => CRef n 0                                    (* a nil pointer *)
  end.
(** Value.assignTo for reflect.ValueOf(v): of a nil interface there is no value to assign *)
Definition assignable (v : cv) (t : ty) : bool := match dyn v with None => false | Some d => match t with TyVar => true | _ => ty_eqb d t end end.
(** Go's == on interface values, for the values that can be keys *)
Definition key_eq (a b : cv) : bool :=
  match a, b with
  | CInt x, CInt y | CByte x, CByte y => x =? y
  | CBool x, CBool y => Bool.eqb x y
  | CFloat x, CFloat y => f_eq x y
  | CStr x, CStr y => beq x y
  | CType x, CType y => ty_eqb x y
  | CUndef, CUndef => true
  | CRef t x, CRef u y => (t =? u)%nat && (x =? y)%nat
  | _, _ => false
  end.
(** hashing a slice or a map panics *)
Definition hashable (v : cv) : bool := match v with CSlice _ _ _ _ _ | CMap _ _ _ => false | _ => true end.
Definition key_ok (k : ty) (key : cv) : bool := assignable key k && hashable key.
Fixpoint find_key (key : cv) (l : list (cv * cv)) : option cv :=
  match l with [] => None | (k, v) :: l' => if key_eq key k then Some v else find_key key l' end.
Fixpoint del_key (key : cv) (l : list (cv * cv)) : list (cv * cv) :=
  match l with [] => [] | (k, v) :: l' => if key_eq key k then l' else (k, v) :: del_key key l' end.
Fixpoint put_key (key v : cv) (l : list (cv * cv)) : list (cv * cv) :=
  match l with [] => [(key, v)] | (k, w) :: l' => if key_eq key k then (k, v) :: l' else (k, w) :: put_key key v l' end.
(** Value.SetMapIndex(key, elem); [None]: the zero Value, which deletes *)
Definition SetMapIndex (kt vt : ty) (m : option nat) (key : cv) (elem : option cv) : M unit :=
  if negb (key_ok kt key) then panics
  else match elem with
  | None => match m with Some i => fun h => set_entries i (del_key key (entries h i)) h | None => ret tt end
  | Some v => match m with Some i => fun h => set_entries i (put_key key v (entries h i)) h | None => panics end
  end.
(** Value.Index of a slice or of a string; the element of a slice as where it is *)
Definition in_range (key : cv) (n : nat) : option nat := match key with CInt z => if (0 <=? z) && (z <? Z.of_nat n) then Some (Z.to_nat z) else None | _ => None end.

(** ** builtin.go *)
(** types/types.go:33-44 builtinTypes *)
Definition builtinTypes : list (bytes * ty) := [
  (s2b "int", TyInt); (s2b "bool", TyBool); (s2b "float", TyFloat); (s2b "string", TyString); (s2b "byte", TyByte); (s2b "var", TyVar);
  (s2b "string:int", TyMap TyString TyInt); (s2b "string:float", TyMap TyString TyFloat); (s2b "string:string", TyMap TyString TyString);
  (s2b "string:var", TyMap TyString TyVar)].
(** types/types.go:21-31 Reflect *)
Definition Reflect (typ : cv) : M ty := match typ with CStr n => must (Compiler.find n builtinTypes) | CType t => ret t | _ => panics end.
(** builtin.go:27-30 Mkmap; the size is not used. reflect.MakeMap panics when the type is not a map *)
Definition Mkmap (typ : cv) : M cv := t <-- Reflect typ ;; match t with TyMap k v => i <-- new_map [] ;; ret (CMap k v (Some i)) | _ => panics end.
(** builtin.go:32-35 MapOf; reflect.MapOf panics when keys of the type cannot be compared *)
Definition MapOf (key val : cv) : M cv :=
  k <-- Reflect key ;; v <-- Reflect val ;; match k with TySlice _ | TyMap _ _ => panics | _ => ret (CType (TyMap k v)) end.
(** builtin.go:283-286 SliceOf *)
Definition SliceOf (typ : cv) : M cv := t <-- Reflect typ ;; ret (CType (TySlice t)).
(** number.go:328-331 kindOf *)
Definition ckind (v : cv) : Z :=
  match v with
  | CNil => kInvalid | CInt _ => kInt | CBool _ => kBool | CFloat _ => kFloat64 | CStr _ => kString | CByte _ => kUint8 | CSlice _ _ _ _ _ => kSlice
  | CMap _ _ _ => 21 | _ => kPtr
  end.
(** number.go:224-242 kindOfArgs, 244-262 kindOf2Args: the arguments after the first *)
Fixpoint kinds_rest (kind : Z) (l : list cv) : Z :=
  match l with
  | [] => kind
  | a :: l' =>
      let t := ckind a in
      if t =? kind then kinds_rest kind l'
      else if (kind =? kFloat64) || (kind =? kInt) then
        if t =? kInt then kinds_rest kind l'
        else if t =? kFloat64 then kinds_rest kFloat64 l'
        else kInvalid
      else kInvalid
  end.
Definition kinds (l : list cv) : Z := match l with [] => kInvalid | a :: l' => kinds_rest (ckind a) l' end.
(** number.go:308-326 asFloat, asInt *)
Definition as_float (v : cv) : M float := match v with CFloat f => ret f | CInt z => ret (f_of_int z) | _ => panics end.
Definition as_int (v : cv) : M Z := match v with CInt z => ret z | _ => panics end.
Definition as_str (v : cv) : M bytes := match v with CStr b => ret b | _ => panics end.
(** the arguments by pairs *)
Fixpoint pairs (l : list cv) : list (cv * cv) := match l with a :: b :: l' => (a, b) :: pairs l' | _ => [] end.
(** builtin.go:37-107 MapFrom: the loop of each case, [key] and [val] being what it does with the arguments (None: skipped) *)
Fixpoint fill (key : cv -> M cv) (val : cv -> M (option cv)) (l acc : list (cv * cv)) : M (list (cv * cv)) :=
  match l with
  | [] => ret acc
  | (a, b) :: l' =>
      v <-- val b ;;
      match v with None => fill key val l' acc | Some v => k <-- key a ;; fill key val l' (put_key k v acc) end
  end.
Definition str_key (v : cv) : M cv := b <-- as_str v ;; ret (CStr b).
Definition int_key (v : cv) : M cv := z <-- as_int v ;; ret (CInt z).
Definition as_elem (f : cv -> M cv) (v : cv) : M (option cv) := x <-- f v ;; ret (Some x).
Definition float_val (v : cv) : M cv := f <-- as_float v ;; ret (CFloat f).
Definition any_val (v : cv) : M (option cv) := ret (match v with CUndef => None | _ => Some v end).
(** the map made by a case: its element type and what is put in it *)
Definition val_case (kind : Z) : ty * (cv -> M (option cv)) :=
  if kind =? kString then (TyString, as_elem str_key)
  else if kind =? kInt then (TyInt, as_elem int_key)
  else if kind =? kFloat64 then (TyFloat, as_elem float_val)
  else (TyVar, any_val).
Definition MapFrom (args : list cv) : M cv :=
  if Nat.odd (length args) then panics
  else match args with
  | [] => i <-- new_map [] ;; ret (CMap TyString TyVar (Some i))
  | _ =>
      let ps := pairs args in
      let kk := kinds (map fst ps) in
      let (vt, val) := val_case (kinds (map snd ps)) in
      if kk =? kString then l <-- fill str_key val ps [] ;; i <-- new_map l ;; ret (CMap TyString vt (Some i))
      else if kk =? kInt then l <-- fill int_key val ps [] ;; i <-- new_map l ;; ret (CMap TyInt vt (Some i))
      else panics
  end.
(** builtin.go:109-112 Delete *)
Definition Delete (m key : cv) : M unit := match m with CMap k v i => SetMapIndex k v i key None | _ => panics end.
(** builtin.go:114-147 Set: of a map and of a slice; of objects see Qlang.Set_ *)
Fixpoint set_map (kt vt : ty) (m : option nat) (l : list (cv * cv)) : M unit :=
  match l with
  | [] => ret tt
  | (key, t) :: l' =>
      match t with
      | CUndef => SetMapIndex kt vt m key None
      | CNil => SetMapIndex kt vt m key (Some (zero vt))
      | _ => if assignable t vt then SetMapIndex kt vt m key (Some t) else panics
      end ;;; set_map kt vt m l'
  end.
Fixpoint set_slice (t : ty) (a off len : nat) (l : list (cv * cv)) : M unit :=
  match l with
  | [] => ret tt
  | (key, v) :: l' =>
      i <-- must (in_range key len) ;;
      (if assignable v t then write a (off + i) v else panics) ;;; set_slice t a off len l'
  end.
Definition CSet (m : cv) (args : list cv) : M unit :=
  if Nat.odd (length args) then panics
  else match m with
  | CMap k v i => set_map k v i (pairs args)
  | CSlice t a off len _ => set_slice t a off len (pairs args)
  | _ => panics
  end.
(** builtin.go:149-162 Get *)
Definition CGet (m key : cv) : M cv :=
  match m with
  | CMap k v i =>
      if key_ok k key then
        match i with Some i => fun h => (Some (match find_key key (entries h i) with Some v => v | None => CUndef end), h) | None => ret CUndef end
      else panics
  | CSlice t a off len _ => i <-- must (in_range key len) ;; fun h => (Some (cell h a (off + i)), h)
  | CStr b => i <-- must (in_range key (length b)) ;; ret (CByte (nth i b 0))
  | _ => panics
  end.
(** builtin.go:164-173 Len *)
Definition CLen (a : cv) : M cv :=
  match a with
  | CNil => ret (CInt 0)
  | CSlice _ _ _ len _ => ret (CInt (Z.of_nat len))
  | CStr b => ret (CInt (Z.of_nat (length b)))
  | CMap _ _ (Some i) => fun h => (Some (CInt (Z.of_nat (length (entries h i)))), h)
  | CMap _ _ None => ret (CInt 0)
  | _ => panics
  end.
(** builtin.go:175-184 Cap *)
Definition CCap (a : cv) : M cv := match a with CNil => ret (CInt 0) | CSlice _ _ _ _ cap => ret (CInt (Z.of_nat cap)) | _ => panics end.
(** builtin.go:186-199 SubSlice; Value.Slice is bounded by the capacity of a slice and by the length of a string *)
Definition CSub (a i j : cv) : M cv :=
  i1 <-- match i with CNil => ret 0 | _ => as_int i end ;;
  j1 <-- match j with
         | CNil => match a with CSlice _ _ _ len _ => ret (Z.of_nat len) | CStr b => ret (Z.of_nat (length b)) | _ => panics end
         | _ => as_int j
         end ;;
  match a with
  | CSlice t x off len cap =>
      if (0 <=? i1) && (i1 <=? j1) && (j1 <=? Z.of_nat cap)
      then ret (CSlice t x (off + Z.to_nat i1) (Z.to_nat j1 - Z.to_nat i1) (cap - Z.to_nat i1)) else panics
  | CStr b => if (0 <=? i1) && (i1 <=? j1) && (j1 <=? Z.of_nat (length b)) then ret (CStr (Base.sub b (Z.to_nat i1) (Z.to_nat j1))) else panics
  | _ => panics
  end.

Section Grow.
(** the capacity the runtime gives an array that has to grow: the element type, the old capacity and the length needed *)
Variable growcap : ty -> nat -> nat -> nat.
(** make([]t, len, cap) holding [l] *)
Definition make_with (t : ty) (l : list cv) (cap : nat) : M cv :=
  a <-- new_arr (l ++ repeat (zero t) (cap - length l)) ;; ret (CSlice t a 0 (length l) cap).
(** a slice of length len + n with the elements of the given one: in the same array if they fit *)
Definition grow (t : ty) (a off len cap n : nat) : M (nat * nat * nat) :=
  if (len + n <=? cap)%nat then ret (a, off, cap)
  else let c := Nat.max (len + n) (growcap t cap (len + n)) in
       fun h => (b <-- new_arr (firstn len (skipn off (arr h a)) ++ repeat (zero t) (c - len)) ;; ret (b, O, c)) h.
(** x[i].Set of one after the other; [put] gives what is stored, None: it panics *)
Fixpoint write_all (put : cv -> option cv) (a i : nat) (l : list cv) : M unit :=
  match l with
  | [] => ret tt
  | v :: l' => x <-- must (put v) ;; write a i x ;;; write_all put a (S i) l'
  end.
(** append and reflect.Append *)
Definition append_with (put : cv -> option cv) (t : ty) (a off len cap : nat) (l : list cv) : M cv :=
  g <-- grow t a off len cap (length l) ;;
  let '(b, o, c) := g in write_all put b (o + len) l ;;; ret (CSlice t b o (len + length l) c).
(** builtin.go:219-235 appendFloat; float32 is left out *)
Definition float_of (v : cv) : option cv := match v with CFloat f => Some (CFloat f) | CInt z => Some (CFloat (f_of_int z)) | _ => None end.
Fixpoint appendFloat (a off len cap : nat) (l : list cv) : M cv :=
  match l with
  | [] => ret (CSlice TyFloat a off len cap)
  | v :: l' =>
      x <-- must (float_of v) ;; g <-- grow TyFloat a off len cap 1 ;;
      let '(b, o, c) := g in write b (o + len) x ;;; appendFloat b o (S len) c l'
  end.
Definition or_zero (t : ty) (v : cv) : option cv := match v with CNil => Some (zero t) | _ => if assignable v t then Some v else None end.
(** builtin.go:201-217 Append *)
Definition CAppend (a : cv) (vals : list cv) : M cv :=
  match a with
  | CSlice t x off len cap =>
      match t with
      | TyFloat => appendFloat x off len cap vals
      | TyVar => append_with Some t x off len cap vals
      | _ => append_with (or_zero t) t x off len cap vals
      end
  | _ => panics
  end.
(** builtin.go:237-262 Slice *)
Definition CMkSlice (typ : cv) (args : list cv) : M cv :=
  nc <-- match args with
         | [] => ret (0, 0)
         | [n] => z <-- as_int n ;; ret (z, z)
         | n :: c :: _ => z <-- as_int n ;; y <-- as_int c ;; ret (z, y)
         end ;;
  t <-- Reflect typ ;;
  let (n, c) := nc : Z * Z in
  if (0 <=? n) && (n <=? c) then make_with t (repeat (zero t) (Z.to_nat n)) (Z.to_nat c) else panics.
(** builtin.go:264-281 SliceFrom *)
Definition CSliceFrom (args : list cv) : M cv :=
  match args with
  | [] => ret (CSlice TyVar 0 0 0 0)
  | _ =>
      let k := kinds args in
      let n := length args in
      if k =? kInt then s <-- make_with TyInt [] n ;; CAppend s args
      else if k =? kFloat64 then s <-- make_with TyFloat [] n ;; CAppend s args
      else if k =? kString then s <-- make_with TyString [] n ;; CAppend s args
      else s <-- make_with TyVar [] n ;; CAppend s args
  end.
End Grow.
