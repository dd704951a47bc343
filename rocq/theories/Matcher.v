(** Model of tpl/match.go (Matcher) and of the parts of tpl/grammar.go that work on positions and text:
    Source, FileLine, MatchError.Error, Code/Marshal. *)
From Verif Require Import Base Token Utf8 Scanner Tokenize Grammar.

Definition bindm {X Y : Type} (m : mayp X) (f : X -> mayp Y) : mayp Y :=
  match m with Val x => f x | Crash => Crash end.
Notation "'do' x <- m ; k" := (bindm m (fun x => k)) (at level 100, x name, m at level 99, right associativity).

(** ** Positions *)
(** go/token File.Offset with base 1: panics on positions outside the file. *)
Definition Offset (src : bytes) (pos : nat) : mayp nat :=
  if (1 <=? pos)%nat && (pos <=? S (length src))%nat then Val (pos - 1)%nat else Crash.
(** go/token File.Line without //line comments: the number of line starts at or before the offset. *)
Definition Line (src : bytes) (ls : list nat) (pos : nat) : mayp nat :=
  do o <- Offset src pos; Val (length (filter (fun l => (l <=? o)%nat) ls)).
(** s.Src[i:j] *)
Definition slice (src : bytes) (i j : nat) : mayp bytes :=
  if (i <=? j)%nat && (j <=? length src)%nat then Val (sub src i j) else Crash.

(** grammar.go:66-76 Source(doc, t).  A slice doc = arr[i:j] of an array is given by the array (including the
    EOF token that Tokenize leaves behind the last token, match.go:55-58) and its bounds; the file and text
    are those of the tokener's last Init. *)
Definition Source (src : bytes) (arr : list token) (i j : nat) : mayp bytes :=
  if (i =? j)%nat then Val []
  else
    match nth_error arr i, nth_error arr j with
    | Some a, Some b =>
        do start <- Offset src (tpos a);
        do end_ <- Offset src (tpos b);
        slice src start end_
    | _, _ => Crash
    end.

(** grammar.go:79-86 FileLine (line number only). *)
Definition FileLine (src : bytes) (ls : list nat) (doc : list token) : mayp nat :=
  match doc with [] => Val 0%nat | a :: _ => Line src ls (tpos a) end.

(** grammar.go:144-155 nextLines. *)
Fixpoint nextLines (n : nat) (l : bytes) : bytes :=
  match l with
  | [] => []
  | c :: r =>
      match n with
      | O => []
      | S n' => c :: (if c =? 10 then nextLines n' r else nextLines n r)
      end
  end.

(** grammar.go:125-142 calcErrorInfo.  [doc] is a suffix of the tokens, [eof] the token behind them.
    text[:errpos-start] re-slices within the capacity of s.Src. *)
Definition calcErrorInfo (src : bytes) (ls : list nat) (doc : list token) (eof : token) (idxErr : nat) : mayp (nat * bytes) :=
  match doc with
  | [] => Val (0%nat, [])
  | d0 :: _ =>
      let arr := doc ++ [eof] in
      do start <- Offset src (tpos d0);
      do end_ <- Offset src (tpos eof);
      match nth_error arr (idxErr + 1), nth_error arr idxErr with
      | Some e1, Some e0 =>
          do errpos <- Offset src (tpos e1);
          do all <- slice src start end_;
          let text := nextLines 9 all in
          do text' <- (if (length text <? errpos - start)%nat then slice src start errpos else Val text);
          do line <- Line src ls (tpos e0);
          Val (line, text')
      | _, _ => Crash
      end
  end.

(** ** Code *)
(** grammar.go:22-30 the levels. *)
Definition lvlOr : Z := 1.
Definition lvlAnd : Z := 2.
Definition lvlList : Z := 3.
Definition lvlRepeat : Z := 4.

Section Marshal.
Context {A T : Type}.
Variable ttol : Z -> mayp bytes.

Definition paren (b : bool) (m : mayp bytes) : mayp bytes := if b then do x <- m; Val (40 :: x ++ [41]) else m.

(** The Marshal methods: grammar.go:172, 194, 218, 245, 272, 310, 368, 420, 456, 488, 537, 596, 624, 661, 690. *)
Fixpoint marshal (lvl : Z) (g : gr A T) : mayp bytes :=
  match g with
  | GNil => Crash                                    (* method call on a nil interface *)
  | GTok k => ttol k
  | GTrue => Val [49]
  | GPeek g1 => do x <- marshal lvlRepeat g1; Val (64 :: x)
  | GNot g1 => do x <- marshal lvlRepeat g1; Val (126 :: x)
  | GEOF => Val [69; 79; 70]
  | GAnd gs =>
      paren (lvlAnd <? lvl)
        ((fix go (first : bool) (gs : list (gr A T)) : mayp bytes :=
           match gs with
           | [] => Val []
           | GNil :: gs' => go false gs'
           | g1 :: gs' =>
               do x <- marshal lvlAnd g1; do y <- go false gs';
               Val ((if first then [] else [32]) ++ x ++ y)
           end) true gs)
  | GOr gs =>
      paren (lvlOr <? lvl)
        ((fix go (first : bool) (gs : list (gr A T)) : mayp bytes :=
           match gs with
           | [] => Val []
           | g1 :: gs' =>
               do x <- marshal lvlOr g1; do y <- go false gs';
               Val ((if first then [] else [32; 124; 32]) ++ x ++ y)
           end) true gs)
  | GRep0 _ g1 => do x <- marshal lvlRepeat g1; Val (42 :: x)
  | GRep1 _ g1 => do x <- marshal lvlRepeat g1; Val (43 :: x)
  | GRep01 _ g1 => do x <- marshal lvlRepeat g1; Val (63 :: x)
  | GList _ a b list0 =>
      paren (lvlList <? lvl)
        (do x <- marshal lvlList a; do y <- marshal lvlList b;
         Val (x ++ [32; 37] ++ (if list0 then [61] else []) ++ [32] ++ y))
  | GVar v => Val v
  | GNamed v _ => Val v
  | GAct g1 _ => marshal lvl g1
  | GTrans g1 _ => marshal lvl g1
  end.
(** grammar.go:89-91 Code. *)
Definition Code (g : gr A T) : mayp bytes := marshal 0 g.

(** grammar.go:111-123 MatchError.Error: line, text and code shown; nested errors are formatted with %v,
    which catches their panics (fmt), so only the outermost can crash. EVarNotAssigned is errors.New. *)
Definition error_text (src : bytes) (ls : list nat) (eof : token) (e : merr A T) : mayp (nat * bytes * bytes) :=
  match e with
  | MErr g doc _ idx =>
      do lt <- calcErrorInfo src ls doc eof idx;
      do code <- Code g;
      Val (fst lt, snd lt, code)
  | EVarNotAssigned => Val (0%nat, [], [])
  end.
End Marshal.

(** ** Matcher *)
Section Matcher.
Context {A T P U V : Type}.
Variable env : bytes -> option (gr A T).
Variable c : client A T P U V.
Variables isL isD : Z -> bool.
Variables mComments mSemis : bool.
(** p.Init; the identity when it is nil (match.go:87-89). *)
Variable minit : st U -> st U.

(** What Match and MatchExactly do. *)
Inductive mout : Type :=
| MNext (next : list token) (s : st U)          (* Match returned next, nil *)
| MNil (s : st U)                               (* MatchExactly returned nil *)
| MNoGrammar (s : st U)                         (* ErrNoGrammar *)
| MTokErr (e : nat * smsg) (s : st U)           (* a TokenizeError *)
| MFail (e : merr A T) (s : st U)               (* the error of the grammar *)
| MPanic (p : pan A T P) (s : st U)
| MFuel.                                        (* model only: out of fuel *)

(** match.go:76-96 Match. *)
Definition Match (fuel : nat) (g : gr A T) (tk : tokener) (old : sc) (src : bytes) (s : st U) : mout :=
  match g with
  | GNil => MNoGrammar s
  | _ =>
      match Tokenize isL isD mComments mSemis tk old src with
      | TzErr _ e => MTokErr e s
      | TzStuck => MFuel
      | TzOk tokens _ =>
          match gmatch env c fuel g tokens (minit s) with
          | Ret n None s' => MNext (skipn n tokens) s'
          | Ret _ (Some e) s' => MFail e s'
          | Panic p s' => MPanic p s'
          | OutOfFuel => MFuel
          end
      end
  end.

(** match.go:99-109 MatchExactly (and Eval, match.go:112-114). *)
Definition MatchExactly (fuel : nat) (g : gr A T) (tk : tokener) (old : sc) (src : bytes) (s : st U) : mout :=
  match Match fuel g tk old src s with
  | MNext next s' => match next with [] => MNil s' | _ => MFail (MErr GEOF next None 0) s' end
  | r => r
  end.
End Matcher.
