(** Model of tpl/grammar.go: the grammar combinators and their [Match] methods.

    Conventions
    - a grammar object is a value of [gr]; sharing of objects (a rule used in two places) is
      sharing of values; the only mutable field of grammar objects, [len] of grRepeat0/1/01 and
      grList, lives in the store [lens], keyed by the identity [id] of the object;
    - [*GrVar] objects are names resolved by the environment [env];
    - a nil [Grammar] is [GNil];
    - actions and transactions are abstract identifiers of type [A], [T], with a semantics given as a
      parameter;
    - token slices are lists; the hidden EOF element behind the end of every slice (match.go:57) is
      modelled where it is used ([source_of], [calc_error_info] in Matcher.v). *)
From Verif Require Import Base Token.

Section Grammar.
Variables A T : Type.

(** grammar.go:158-160 grToken, 187 grTrue, 207 grPeek, 234 grNot, 262 grEOF, 286 grAnd, 341 grOr,
    396 grRepeat0, 433 grRepeat1, 469 grRepeat01, 502 grList, 567 GrVar, 608 GrNamed, 643 grAction,
    673 grTrans. *)
Inductive gr : Type :=
| GNil
| GTok (kind : Z)
| GTrue
| GPeek (g : gr)
| GNot (g : gr)
| GEOF
| GAnd (gs : list gr)
| GOr (gs : list gr)
| GRep0 (id : nat) (g : gr)
| GRep1 (id : nat) (g : gr)
| GRep01 (id : nat) (g : gr)
| GList (id : nat) (a b : gr) (list0 : bool)
| GVar (name : bytes)
| GNamed (name : bytes) (g : gr)
| GAct (g : gr) (a : A)
| GTrans (g : gr) (t : T).

(** grammar.go:103-109 MatchError (the Ctx field is the matcher itself and is omitted),
    grammar.go:12 ErrVarNotAssigned. *)
Inductive merr : Type :=
| MErr (g : gr) (src : list token) (inner : option merr) (idx : nat)
| EVarNotAssigned.

Variable P : Type.

(** Panic values: a MatchError (grammar.go:300-301), a nil dereference by the runtime,
    or a value raised by client code. *)
Inductive pan : Type :=
| PMatch (e : merr)
| PNilDeref
| PUser (p : P).

Variable U : Type.

(** The store: len fields of the grammar objects plus the client's state. *)
Record st : Type := mkSt { lens : nat -> Z; ust : U }.

(** p.len = v (grammar.go:411, 445, 452, 481, 484, 515, 528). *)
Definition set_len (id : nat) (v : Z) (s : st) : st :=
  mkSt (fun i => if Nat.eqb i id then v else lens s i) (ust s).

(** Len methods (grammar.go:176, 198, 223, 250, 276, 329, 384, 401, 438, 474, 508, 582, 614, 648, 679). *)
Fixpoint glen (s : st) (g : gr) : Z :=
  match g with
  | GAnd gs | GOr gs => Z.of_nat (length gs)
  | GRep0 id _ | GRep1 id _ | GRep01 id _ | GList id _ _ _ => lens s id
  | GAct g _ | GTrans g _ => glen s g
  | _ => -1
  end.

(** Result of a Match call. *)
Inductive res : Type :=
| Ret (n : nat) (err : option merr) (s : st)
| Panic (p : pan) (s : st)
| OutOfFuel.

(** Result of an action call. *)
Inductive ares : Type :=
| AOk (s : st)
| APanic (p : pan) (s : st)
| AOutOfFuel.

Definition matcher := gr -> list token -> st -> res.

(** grammar.go:290-308 grAnd.Match: the loop over p.gs.  [src] is the whole input, [n] what was
    consumed so far, [ff] the variable failFast. *)
Fixpoint and_loop (m : matcher) (p : gr) (src : list token) (gs : list gr) (ff : bool) (n : nat)
    (s : st) : res :=
  match gs with
  | [] => Ret n None s
  | GNil :: gs' => and_loop m p src gs' true n s
  | g :: gs' =>
      match m g (skipn n src) s with
      | Ret n1 None s1 => and_loop m p src gs' ff (n + n1) s1
      | Ret n1 (Some e) s1 =>
          if ff then Panic (PMatch (MErr p src (Some e) (n + n1))) s1
          else Ret (n + n1) (Some e) s1
      | r => r
      end
  end.

(** grammar.go:345-366 grOr.Match. *)
Fixpoint or_loop (m : matcher) (p : gr) (src : list token) (gs : list gr)
    (nMax : nat) (errMax : option merr) (multiErr : bool) (s : st) : res :=
  match gs with
  | [] => Ret nMax (if multiErr then Some (MErr p src None 0) else errMax) s
  | g :: gs' =>
      match m g src s with
      | Ret n None s1 => Ret n None s1
      | Ret n (Some e) s1 =>
          if (nMax <=? n)%nat then
            if (n =? nMax)%nat then or_loop m p src gs' nMax errMax true s1
            else or_loop m p src gs' n (Some e) false s1
          else or_loop m p src gs' nMax errMax multiErr s1
      | r => r
      end
  end.

(** grammar.go:408-417 the loop of grRepeat0.Match (also used by grRepeat1 through r2,
    grammar.go:449-450, and, with g = And(b, a), by grList, grammar.go:525-534).
    Returns the count and the consumed length instead of writing p.len. *)
Inductive lres : Type :=
| LRet (cnt : Z) (n : nat) (s : st)
| LPanic (p : pan) (s : st)
| LOutOfFuel.

Fixpoint rep_loop (k : nat) (m : matcher) (g : gr) (src : list token) (cnt : Z) (n : nat) (s : st)
    : lres :=
  match k with
  | O => LOutOfFuel
  | S k' =>
      match m g src s with
      | Ret n1 None s1 => rep_loop k' m g (skipn n1 src) (cnt + 1) (n + n1) s1
      | Ret _ (Some _) s1 => LRet cnt n s1
      | Panic p s1 => LPanic p s1
      | OutOfFuel => LOutOfFuel
      end
  end.

Variable V : Type.

(** Semantics of the client functions: actions (grammar.go:645), transaction begin and end
    (grammar.go:675-676).  [end] receives err == nil only. *)
Record client : Type := mkClient {
  c_act : A -> list token -> Z -> st -> ares;
  c_begin : T -> st -> V * st;
  c_end : T -> V -> bool -> st -> st
}.

Variable env : bytes -> option gr.

(** One unfolding of Match: [m] is the recursive call, [k] bounds loops. *)
Definition gstep (c : client) (k : nat) (m : matcher) (g : gr) (src : list token) (s : st) : res :=
  match g with
  | GNil => Panic PNilDeref s
  | GTok kind =>                                       (* grammar.go:162-170 *)
      match src with
      | t :: _ =>
          if (tkind t =? kind) || ((tkind t =? INT) && (kind =? FLOAT)) then Ret 1 None s
          else Ret 0 (Some (MErr g src None 0)) s
      | [] => Ret 0 (Some (MErr g src None 0)) s
      end
  | GTrue => Ret 0 None s                              (* grammar.go:190-192 *)
  | GPeek g1 =>                                        (* grammar.go:211-216 *)
      match m g1 src s with
      | Ret _ None s1 => Ret 0 None s1
      | Ret _ (Some _) s1 => Ret 0 (Some (MErr g src None 0)) s1
      | r => r
      end
  | GNot g1 =>                                         (* grammar.go:238-243 *)
      match m g1 src s with
      | Ret _ None s1 => Ret 0 (Some (MErr g src None 0)) s1
      | Ret _ (Some _) s1 => Ret 0 None s1
      | r => r
      end
  | GEOF =>                                            (* grammar.go:265-270 *)
      match src with
      | [] => Ret 0 None s
      | _ => Ret 0 (Some (MErr g src None 0)) s
      end
  | GAnd gs => and_loop m g src gs false 0 s
  | GOr gs => or_loop m g src gs 0 None true s
  | GRep0 id g1 =>                                     (* grammar.go:405-418 *)
      match rep_loop k m g1 src 0 0 s with
      | LRet cnt n s1 => Ret n None (set_len id cnt s1)
      | LPanic p s1 => Panic p s1
      | LOutOfFuel => OutOfFuel
      end
  | GRep1 id g1 =>                                     (* grammar.go:442-454 *)
      match m g1 src s with
      | Ret n None s1 =>
          match rep_loop k m g1 (skipn n src) 0 0 s1 with
          | LRet cnt n2 s2 => Ret (n + n2) None (set_len id (cnt + 1) s2)
          | LPanic p s2 => Panic p s2
          | LOutOfFuel => OutOfFuel
          end
      | Ret n (Some e) s1 => Ret n (Some e) (set_len id 0 s1)
      | r => r
      end
  | GRep01 id g1 =>                                    (* grammar.go:478-486 *)
      match m g1 src s with
      | Ret n None s1 => Ret n None (set_len id 1 s1)
      | Ret _ (Some _) s1 => Ret 0 None (set_len id 0 s1)
      | r => r
      end
  | GList id a b list0 =>                              (* grammar.go:512-535 *)
      match m a src s with
      | Ret n None s1 =>
          match rep_loop k m (GAnd [b; a]) (skipn n src) 1 n s1 with
          | LRet cnt n2 s2 => Ret n2 None (set_len id cnt s2)
          | LPanic p s2 => Panic p s2
          | LOutOfFuel => OutOfFuel
          end
      | Ret n (Some e) s1 =>
          if list0 then Ret 0 None (set_len id 0 s1) else Ret n (Some e) (set_len id 0 s1)
      | r => r
      end
  | GVar v =>                                          (* grammar.go:587-593 *)
      match env v with
      | Some g1 => m g1 src s
      | None => Ret 0 (Some EVarNotAssigned) s
      end
  | GNamed _ g1 => m g1 src s                          (* grammar.go:619-621 *)
  | GAct g1 a =>                                       (* grammar.go:652-659 *)
      match m g1 src s with
      | Ret n None s1 =>
          match c_act c a (firstn n src) (glen s1 g1) s1 with
          | AOk s2 => Ret n None s2
          | APanic p s2 => Panic p s2
          | AOutOfFuel => OutOfFuel
          end
      | r => r
      end
  | GTrans g1 t =>                                     (* grammar.go:683-688 *)
      let (v, s0) := c_begin c t s in
      match m g1 src s0 with
      | Ret n err s1 =>
          Ret n err (c_end c t v (match err with None => true | Some _ => false end) s1)
      | r => r
      end
  end.

(** g.Match(src, ctx) (grammar.go:58): the recursion tied with fuel. *)
Fixpoint gmatch (c : client) (fuel : nat) (g : gr) (src : list token) (s : st) : res :=
  match fuel with
  | O => OutOfFuel
  | S f => gstep c f (gmatch c f) g src s
  end.

(** Actions that only touch the client's own state (not the grammar objects). *)
Record uclient : Type := mkUclient {
  u_act : A -> list token -> Z -> U -> U + (pan * U);
  u_begin : T -> U -> V * U;
  u_end : T -> V -> bool -> U -> U
}.

Definition lift (u : uclient) : client := mkClient
  (fun a ts l s => match u_act u a ts l (ust s) with
                   | inl x => AOk (mkSt (lens s) x)
                   | inr (p, x) => APanic p (mkSt (lens s) x)
                   end)
  (fun t s => let (v, x) := u_begin u t (ust s) in (v, mkSt (lens s) x))
  (fun t v ok s => mkSt (lens s) (u_end u t v ok (ust s))).

End Grammar.

Arguments GNil {A T}.
Arguments GTok {A T}.
Arguments GTrue {A T}.
Arguments GPeek {A T}.
Arguments GNot {A T}.
Arguments GEOF {A T}.
Arguments GAnd {A T}.
Arguments GOr {A T}.
Arguments GRep0 {A T}.
Arguments GRep1 {A T}.
Arguments GRep01 {A T}.
Arguments GList {A T}.
Arguments GVar {A T}.
Arguments GNamed {A T}.
Arguments GAct {A T}.
Arguments GTrans {A T}.
Arguments MErr {A T}.
Arguments EVarNotAssigned {A T}.
Arguments PMatch {A T P}.
Arguments PNilDeref {A T P}.
Arguments PUser {A T P}.
Arguments mkSt {U}.
Arguments lens {U}.
Arguments ust {U}.
Arguments set_len {U}.
Arguments glen {A T U}.
Arguments Ret {A T P U}.
Arguments Panic {A T P U}.
Arguments OutOfFuel {A T P U}.
Arguments AOk {A T P U}.
Arguments APanic {A T P U}.
Arguments AOutOfFuel {A T P U}.
Arguments LRet {A T P U}.
Arguments LPanic {A T P U}.
Arguments LOutOfFuel {A T P U}.
Arguments and_loop {A T P U}.
Arguments or_loop {A T P U}.
Arguments rep_loop {A T P U}.
Arguments mkClient {A T P U V}.
Arguments c_act {A T P U V}.
Arguments c_begin {A T P U V}.
Arguments c_end {A T P U V}.
Arguments gstep {A T P U V}.
Arguments gmatch {A T P U V}.
Arguments mkUclient {A T P U V}.
Arguments u_act {A T P U V}.
Arguments u_begin {A T P U V}.
Arguments u_end {A T P U V}.
Arguments lift {A T P U V}.
