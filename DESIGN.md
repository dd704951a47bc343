# Formal model of qiniu/text in Coq — design

All paths are relative to /repo.  The model lives in `rocq/theories`, uses only the
Coq 8.16 standard library and no axioms of its own.

## Layering

| file(s) | models / contains |
|---|---|
| `Base.v` | bytes as `Z`, lists of bytes, small list lemmas |
| `Token.v` | model of `tpl/token.go`: token table, `Token2Lit`, `Lit2Token`, `TokenLen`; `Token.End` |
| `Utf8.v` | model of `utf8.DecodeRune`, `string(rune)` as used by the scanner |
| `Scanner.v` | model of `tpl/scanner.go`, function by function |
| `Tokenize.v` | model of `Matcher.Tokenize` and `tpl/autokw.go` |
| `ScannerSpec.v` | specification: white space, comments, lexemes, line ends, well-formedness |
| `ScannerProofs*.v`, `Scan{Run,Init,Det,Obs,Modes,Clean,Line}.v`, `TokenizeProofs.v`, `Utf8Proofs.v` | proofs |
| `Grammar.v` | model of `tpl/grammar.go`: all combinators and their `Match`, errors, `Len`, `Source` |
| `PegSpec.v` | specification: declarative PEG semantics with a trace of action events |
| `MatchProofs*.v`, `MatchObs.v`, `MatchInv.v`, `Wf.v`, `PegTools.v` | proofs |
| `Matcher.v` | model of `tpl/match.go` and of the error texts' index arithmetic |
| `Compiler.v` | model of `tpl/compiler.go`: the meta grammar with its stack actions, run by the modelled matcher |
| `GramSyntax.v` | specification: syntax trees of grammar texts and what they denote |
| `Compiler{Proofs,Back,Top,More,Den}.v` | proofs |
| `PrintBack.v`, `PrintToks.v`, `CodeLang.v` | what `Code` prints and the grammars that read back; proofs |
| `Interp.v` | model of `tpl/interpreter` (engine, marks, `EvalCode`) and `tpl/interpreter.util` (calls, literals) |
| `Calc.v` | model of `tpl/number`, `tpl/rat`, `tpl/cmplx` |
| `Float53.v` | float64 on integers up to 2^53: `math.Mod`, `int(x)`, the functions of package `number`; exactness lemmas |
| `CalcSpec.v` | specification: expression trees and their value |
| `Calc{Proofs,Value,Acts,Top}.v` | proofs |
| `Extractor.v` | model of `tpl/extractor` |
| `ExtractSpec.v` | specification: histories of insertions and their document |
| `ExtractProofs.v` | proofs |
| `QValue.v` | qlang values; model of `tpl/qlang/lib/builtin/{number,boolean}.go`, `castVal`, `spec.Import` |
| `Qlang.v` | model of `tpl/qlang/cl` (stack, variables, control flow, functions, classes, calls) and of its function table, over any evaluator of code |
| `QlangTop.v` | the qlang grammar, what it compiles to (checked against the modelled compiler), the evaluator tied through `EvalCode`, `Exec` |
| `QlangSpec.v` | specification: code, branches, loops, the nearest definition of a name |
| `QlangEx.v` | running program texts in examples |
| `QText.v` | specification: the well-formed qlang texts and what evaluating each does |
| `QExpr.v` | specification: expression trees, how they are written, their values |
| `QEmbed.v` | `cl/qlang.go` Vars, Var, SetVar, Ret, `engine.go` SafeEval; specification of a host session |
| `QWhile.v` | specification: programs without functions, how they are written, what they do to a map of variables |
| `QFun.v` | specification: programs with functions and slices, what they do to the variables of the calls made so far |
| `QRead.v` | a reader for such programs by recursive descent (models no code: it shows that the specification can be computed from a text) and its soundness |
| `QOdd.v` | specification: the two constructs outside `QText` that the grammar accepts |
| `GramLang.v` | the language of a grammar without the order of its alternatives; what is matched is in it |
| `QConv.v` | proofs: every text that the qlang grammar consumes is a text of `QText` or has a construct of `QOdd` |
| `PegRel.v`, `Q{Tidy,Step,Glue,Parse,Fwd,Fwd2,Eval,ExprP,Hoare}.v` | proofs: the grammar accepts every text of `QText`, and its actions do what the text means |
| `QCont.v` | model of the slices and maps of `tpl/qlang/lib/builtin/builtin.go`, with the storage they share |
| `QContSpec.v` | specification: elements, places, stored values, histories of calls |
| `QContP.v` | proofs |
| `QInterp.v` | model of `tpl/qlang/cl/interpreter/interpret.go`; `MarkCheck.v`: markers that accept or reject by name |
| `Gen.v` | model of `tpl/generator/static_parser_gen.go` |
| `GenSpec.v` | specification: reading the Go text the generator returns, and which sources are covered |
| `Gen{Proofs,Read,Top}.v` | proofs |
| `Cmd.v` | model of `tpl/cmd/tplconv` and `tpl/cmd/tplgen` over any file system |
| `StaticInterp.v` | model of the interpreter that `tplgen -i` writes (`tpl/cmd/tplgen/output.tpl`) |
| `Reuse.v` | model of what a tokener keeps of its last text, and of Source, FileLine and the error texts that ask it |
| `Repl.v` | model of the interactive calculators in `tpl/examples` |
| `Prop*.v` | the final theorems, one block per property, with witnesses and `Print Assumptions` |

## Modelling conventions

* Bytes, runes and token kinds are `Z`; source text is `list Z`; offsets are `nat`;
  `token.Pos` is 1 + offset (the scanner adds its file first to a fresh `FileSet`, whose base is 1).
* Go loops are recursive functions with fuel that return `None`/`OutOfFuel` when it runs out.
  For the scanner, the compiler and well-formed grammars the theorems show that this value is never
  reached from the fuel the model supplies; for the matcher in general, results are stable under more fuel.
* Panics are explicit results (`Panic p st`).
* Grammar objects: an inductive type; the mutable `len` fields of `grRepeat*`/`grList` are kept in a
  store keyed by node identity, so sharing and recursion through the same object are visible.
  Rule variables (`GrVar`) are names resolved in an environment; a nil `Grammar` is `GNil`.
* Action functions are parameters of the matcher (any function of tokens, `Len` and the client state).
* `unicode.IsLetter`/`IsDigit` on non-ASCII runes are parameters of the scanner; every theorem holds for every choice.
* Floating point and `math` functions are parameters (the calculators are generic in the arithmetic; qlang and C88 use `SpecFloat`);
  the rational calculator is instantiated with exact rationals.

## Not modelled
file name handling (the cleaning of names in `//line` comments included), reflection internals,
output formatting of error texts beyond the index computations that can panic, JSON conversion, the parsing of
command line flags, goroutines (there are none), and the qlang libraries that only wrap Go packages.

## Properties

For each property: what is modelled / how it is proved.

* C01 Scanner; measure `len - offset`, invariant "the current character is the rune decoded at offset".
* C02–C04 Scanner; each token scanner is shown to consume exactly a lexeme of `ScannerSpec`; tiling by induction on the run.
* C05 Scanner with look-ahead; `ScannerSpec.line_ends`; induction on the gap. The `#` anomaly is a refuted statement.
* C06 simulation between the two modes.
* C07 invariants over runs of `Scan`; `Tokenize` as modelled in `Matcher`.
* C08 the written tokens form the decomposition C67 asks for (PropScan2).
* C09 case analysis over the operator table for arbitrary continuation; `..` anomaly refuted.
* C10 Init's result does not mention the old state (proved for whole runs).
* C11 from C02/C03; refuted for semicolons and carriage returns with witnesses.
* C12, C13 table theorems; all-strings direction by association-list lemmas; `TokenLen` panics/negative refuted.
* C14 state machine of `AutoKwScanner`, invariant over histories.
* C15 invariant relating the line table to the newline offsets below the high-water mark.
* C16–C27 `Grammar` against `PegSpec`: refinement in both directions, then laws on the declarative semantics.
* C28 `Matcher` on top of C17. C29 from C02. C30 model of `calcErrorInfo` index arithmetic; refuted with witness, proved for ordinary failures.
* C31–C36 meta grammar run by the modelled matcher; AST of grammar texts; induction on the AST; PEG success implies AST.
* C37 `Marshal` modelled; `norm` and `prints` (PrintBack) say up to what and for which grammars the printed text compiles back; PrintToks: the text as tokens (C08) and as a tree; the exceptions are refuted by examples (PropCode). CodeLang, PropCode2: equal normal forms match alike (by a matching relation that forgets lengths, calls and `!`), so a rule printed and compiled again matches and fails where the printed one does, and only there if no rule has a `!`.
* C38 theorem that `Gr(EOF)` never matches a scanned text.
* C39 state machine of the interpreter marker.
* C40, C41 calculator grammar run by the modelled matcher over an arbitrary arithmetic algebra; AST induction.
* C42 `call.go` with signatures as data. C43, C44 `strconv` integer parsing modelled. C45, C46 engine frame rules.
* C47–C51 extractor documents as insertion histories; transactions through the matcher.
* C52–C54, C61, C63 operations on an inductive value type, int64 as wrapped `Z`, float64 as the standard library's IEEE 754 specification (PropValue).
* C72, C73 SafeExec by the relation `safe_ends`, classes and objects by equations on the stack a program has at each construct
  (PropClass.v); C55 also for calls as programs make them (with `...`).
* C74 34 mutually inductive relations (QText) between token sequences and computations; by mutual induction each has a PEG derivation in the
  compiled grammar whose trace of actions does the computation, whatever alternatives failed before (their actions are shown to cancel or not to have happened);
  the derivation is run by C16's simulation, with fuel independent of the client.
  Conversely (PropAccept.v): a match that returns has a PEG derivation (MatchProofs2), so what it consumes is in the language of the grammar
  (GramLang, by induction on the derivation); rule by rule, that language is the one of QText and the constructs of QOdd (QConv).
* C75 from C74 and C57, by induction on how the expression is written.
* C76 by a program logic with a floor of the stack (QSafeP): every operation is safe (QSafeE), then every text by induction on how it is written, given a safe evaluator (QSafeT.all_safe), then the evaluator by induction on the bound (QSafeT.ev_safe), then sessions by induction on the history.  The specification is QSafe.v: well-formed values and states hold only code that is a document of QText.
* C77, C78 containers as references into a heap (`QCont`); an invariant over all histories of calls (`reached_sound`: a typing of the heap that only grows), then for each function its result and exactly which places it changes; how much the runtime grows an array is a parameter. Left out: types with the underlying type of another, `float32`, channels, and what panics say. `PropIndex` shows that slice literals and `s[i]` in programs (`Qlang`) agree with `sliceFrom` and `get` of `QCont`.
* C79 `return` outside of functions and `main`: exact outcome (iff) in terms of the run of the deferred expressions (C56) and of the call (C55); os.Exit is an outcome `VExit` that no `recover` sees.
* C80 `tpl/qlang/cl/interpreter`: QInterp.v over any function-call semantics (instantiated with the qlang machine of Qlang.v); which objects and marks New accepts (iff), what each action does (iff), muting, EvalCode's frame. C81 the marks interpreter.New accepts (iff), by MarkCheck.v: a marker that accepts or rejects by name compiles a text iff accepting all marks does and each mark of the text is accepted.
* C82 every function of the scanner but `scanComment` keeps the line infos (ScanLine.v, one lemma each), `lineOffset` is the start of the current line (`LO`, an invariant of every step), so a scan adds an info exactly for a comment at a line start whose text is a directive; both modes go through the same states (C06). Positions then by counting newlines (C15).
* C83 tplconv as a function on worlds (files, standard output) with the outside (extractor, JSON, templates, creating, writing) as parameters; case analysis, a frame for each step, induction over the arguments (PropCmd). C84 tplgen on Go syntax trees; the search equals "the first place that is not quiet" over the flattened places; literals against an inductive specification of Go's escapes (PropGenCmd).
* C85 from C40 and C41 by induction over the lines (PropSession).
* C86 by an extensionality lemma for matching (clients that do the same on the tokens a grammar can hand them make matching the same) and by the
  spelling of number tokens (PropStatic).
* C87 induction on the history; the state in which Tokenize leaves the scanner is that of a run of Scan, so C82 and C15 give the lines (PropReuse).
* C55–C60, C62 qlang actions over an abstract code evaluator (any evaluator satisfying the stated frame conditions;
  `C55_kept` and `C58_one_value` in PropStack.v prove these of the model's own evaluator for well-formed code).
* C65, C66 from the same run invariant as C02 (no errors so far implies well-formed pieces) and determinism of the lexical specification.
* C67 converse of C65, by forward simulation of each sub-scanner on well-formed input. C68 from C15 and the token positions.
* C88 the operations of `SpecFloat` shown exact on integers up to 2^53 (Float53); values over the integers simulate values over float64 (CalcSim, PropFloat), then C40.
* C89 complex128 as pairs of float64; the simulation of C88 (CalcSim) with Gaussian integers (PropCmplx).
* C90 the rational calculator related in both directions to expressions over Coq's Q with == (PropRat), by CalcSim; agreement with C88 and C89 by relating the integer expressions common to both.
* C91 a host session (SetVar, Var, SafeEval, Ret) refines a map from names to values: by induction on the session, from C75 (values and panics of expressions) and C57 (coherent caches); Ret from C76.
* C92 programs of assignments, if, switch and for refine a big-step evaluator on maps (QWhile.v): the meaning of each written statement (QText) keeps stack, bases and frames but for the variables, by induction on the writing; loops by induction on the rounds; sessions as in C91.
* C93 every function of the engine is monotone in the evaluator and the bound (QMono.v: a result that is not the out-of-steps one stays), so results do not depend on the bound; programs without functions: each written statement either runs out of steps or has an outcome of the big-step evaluator (QEnds.v, induction on the writing as in C92, loops by induction on the bound), which with C92 gives that Exec ends exactly if the program does.
* C94 a big-step evaluator for programs with functions (also of a variable number of arguments), slices, assignments of several names, deferred expressions, panic and recover() over a list of scopes (QFun.v: own variables, the enclosing call, the outer names read so far, which decide where an assignment goes, the expressions deferred, and the panic the call is ending with); texts of such programs as in C92 (QFunP.v: each expression and statement does to the frames of the engine what the evaluator does to the scopes, given that calls do; induction on the writing; the names a frame has entries for are those the call has or has read), calls by induction on their depth (QFunK.v), then Exec and host sessions (PropFun.v). A reader by recursive descent (QRead.v), proved to read only programs written so, makes the specification computable from a text. The bases that a panic leaves behind are those of the panicking function only, which needed a sharper form of C75.
* C95 exact outcome (iff) of `SafeParse` in terms of `Parse`; where panics come from by the induction principle for matching (`MatchInv.v`).
* C64 the generator's stack of texts (`Gen`), run by the modelled matcher on the meta grammar; `GenSpec` reads the returned Go text back (declarations, statements, expressions); the two elaborations are run side by side over the syntax tree; refuted where the generator is wrong, proved for the rest.

## Trusted base
* Coq 8.16.1's kernel (and `vm_compute`, which evaluates the concrete witnesses).
* Axioms: none.  `Print Assumptions` says "Closed under the global context" for every theorem in `MANIFEST.json`
  (the `Prop*.v` files print it for each).  Modules of the standard library that declare axioms may be loaded
  by a `Require`, but no theorem uses them.
* The faithfulness of the hand-written model to the Go source.  Each definition cites its lines in /repo and says where it simplifies.
* The behaviour of Go itself and of its library as modelled: UTF-8 decoding, `go/token.File`'s line table,
  `strconv.ParseInt`, maps, slices, strings, panics and `defer`/`recover`.
  Where a library function is a parameter of the model (floating point, `strconv.Unquote`, `math`, `big.Rat`,
  `unicode.IsLetter` outside ASCII), the theorems hold for every value of the parameter.

## Reading seeded/LOG.jsonl
* `failed` names the first lemma or theorem of each file at which the build of the edited copy stopped, and the files
  of final theorems that then could not be built.  These were blocked, not each refuted one by one.
* A proof script can stop although its statement is still true of the edited program.  An entry whose only failure is an
  auxiliary lemma is therefore weaker evidence than one that names a `CNN_` theorem.
* Entries with an empty `failed` are edits that nothing noticed when they were tried; `tightened` or `note` says what became of them.
