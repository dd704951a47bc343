{"id": "C01", "title": "Scanning terminates and always makes progress", "statement": "After Init on any byte string, in any mode, every call of Scan returns, and repeatedly calling Scan reaches an EOF token after finitely many calls; once EOF was returned every later Scan returns EOF at the same position.", "quantifier": "all byte strings src, all scan modes, all letter/digit classifications of non-ASCII runes, any number of Scan calls", "why_tests_cant": "A loop that fails to advance shows only on the one input that hits it; there are infinitely many inputs.", "anchors": ["tpl/scanner.go: Scanner.Scan, next, skipWhitespace, scanComment, scanString, scanRune, scanEscape, scanNumber, findLineEnd", "tpl/match.go: Matcher.Tokenize"]}
{"id": "C02", "title": "Scanning loses nothing: tokens and gaps tile the source", "statement": "The source text is exactly the concatenation gap0 lexeme0 gap1 lexeme1 ... gapN where each gap is white space and comments only (no comments in ScanComments mode), lexeme i is the spelling of the i-th token, and Pos of token i is 1 + the length of everything before its lexeme (after the optional leading byte order mark).", "quantifier": "all byte strings, all modes", "why_tests_cant": "Dropped or duplicated bytes depend on arbitrary combinations of adjacent lexemes; tests sample a few.", "anchors": ["tpl/scanner.go: Scanner.Scan, Scanner.next, skipWhitespace"]}
{"id": "C03", "title": "Token literals are faithful to the source", "statement": "For IDENT, INT, FLOAT, IMAG, CHAR, interpreted STRING and #-COMMENT tokens Literal equals the source bytes starting at Pos; for raw strings and /-comments it equals those bytes with every carriage return removed; operators carry an empty Literal, except an explicit semicolon which carries \";\" and an automatic one which carries \"\\n\".", "quantifier": "all byte strings, all modes, every token returned", "why_tests_cant": "Needs every source text and every token kind at once.", "anchors": ["tpl/scanner.go: Scan, scanIdentifier, scanNumber, scanString, scanRawString, scanRune, scanComment, stripCR"]}
{"id": "C04", "title": "Token positions are ordered and in range", "statement": "Positions of successive tokens never decrease, stay within [1, len(src)+1], and two tokens share a position only if the first is an automatically inserted semicolon (or both are EOF).", "quantifier": "all byte strings, all modes, all pairs of tokens of a scan", "why_tests_cant": "A relational property over every pair of tokens of every text.", "anchors": ["tpl/scanner.go: Scan, findLineEnd", "tpl/scanner.go: Token.Pos"]}
{"id": "C05", "title": "Semicolon insertion rule", "statement": "Without InsertSemis no token has literal \"\\n\". With it, a semicolon with literal \"\\n\" is returned directly after a token iff that token is an identifier, number, char or string literal, one of ) ] } ++ -- (or an illegal character preserving that status) and the line ends before the next token, i.e. after optional blanks and newline-free block comments there is a newline, a //-comment, a block comment containing a newline, or end of file; a # comment directly after blanks also ends the line.", "quantifier": "all byte strings, all tokens", "why_tests_cant": "Depends on unbounded look-ahead over blanks and nested sequences of comments.", "anchors": ["tpl/scanner.go: Scan, findLineEnd, skipWhitespace"]}
{"id": "C06", "title": "ScanComments only adds COMMENT tokens", "statement": "Scanning the same text with and without ScanComments gives the same token sequence once COMMENT tokens are dropped, and the same errors.", "quantifier": "all byte strings, both settings of InsertSemis", "why_tests_cant": "Two whole runs have to be compared on every text.", "anchors": ["tpl/scanner.go: Scan, scanSharpComment, scanComment, ScanComments"]}
{"id": "C07", "title": "ErrorCount counts handler calls and Tokenize reports lexical errors", "statement": "ErrorCount equals the number of error-handler calls; Tokenize returns an error iff some Scan up to EOF (or Init) reported one, and in that case the returned tokens are exactly the tokens produced by the error-free Scans before it.", "quantifier": "all byte strings, all modes", "why_tests_cant": "The link between handler calls and the result must hold for each of the error sites on every text.", "anchors": ["tpl/scanner.go: error, Init", "tpl/match.go: Matcher.Tokenize"]}
{"id": "C08", "title": "Printing tokens with blanks and re-scanning gives them back", "statement": "For every sequence of operator tokens, ASCII identifiers, decimal integers and simple string/char literals, writing the spellings separated by non-empty blanks and tokenizing yields the same kinds and literals, without error, at the positions where they were written.", "quantifier": "all finite token sequences, all choices of separating blanks", "why_tests_cant": "Round-trip over an infinite set of sequences, including all operator adjacencies.", "anchors": ["tpl/scanner.go: Scan", "tpl/match.go: Matcher.Tokenize", "tpl/token.go: tokens"]}
{"id": "C09", "title": "Operators follow the longest match", "statement": "When Scan returns an operator token, no longer operator spelling of the token table is a prefix of the source at that position; the spelling at the position is the one the token table gives for the token.", "quantifier": "all byte strings, all operator tokens returned", "why_tests_cant": "Every operator has to be checked against every continuation.", "anchors": ["tpl/scanner.go: switch2, switch3, switch4, Scan", "tpl/token.go: tokens"]}
{"id": "C10", "title": "Re-initialising a scanner forgets the past", "statement": "After Init, the tokens, errors and error count of all later Scans depend only on the source and the mode, not on any earlier use of the same Scanner.", "quantifier": "all previous scanner states, all byte strings, all modes", "why_tests_cant": "The previous state ranges over every possible history.", "anchors": ["tpl/scanner.go: Scanner.Init"]}
{"id": "C11", "title": "Token.End is the position just after the token", "statement": "For operator tokens, identifiers, numbers, chars, interpreted strings and keywords End() equals the offset just after the lexeme; this fails for semicolons (literal and operator length are both counted) and for literals whose carriage returns were stripped.", "quantifier": "all tokens of all scans", "why_tests_cant": "Depends on every token kind and on source contents (carriage returns).", "anchors": ["tpl/scanner.go: Token.End", "tpl/token.go: TokenLen"]}
{"id": "C12", "title": "Token names round-trip", "statement": "Lit2Token(Token2Lit(tok)) = tok for every token with a spelling, Token2Lit(Lit2Token(lit)) = lit for every literal with a token, Token2Lit panics exactly on numbers beyond the table, and distinct tokens have distinct spellings.", "quantifier": "all token numbers and all strings", "why_tests_cant": "All strings: the inverse direction is over an infinite domain.", "anchors": ["tpl/token.go: Token2Lit, Lit2Token, tokens, rtokens"]}
{"id": "C13", "title": "TokenLen is the operator length", "statement": "TokenLen(tok) is the length of the operator spelling for every operator. On every other number it is 0, except that it panics on exactly one number (154) and returns -2 on the unused numbers between the table entries 33 and 153. (So it is false that it is never negative and never panics.)", "quantifier": "all token numbers", "why_tests_cant": "The tests only run it on tokens a particular text contains.", "anchors": ["tpl/token.go: TokenLen"]}
{"id": "C14", "title": "Keywords discovered by AutoKwScanner are unique and stable", "statement": "Each distinct double-quoted literal registered through Ltot gets its own token >= USER_TOKEN_BEGIN, registering again returns the same token, Ttol inverts Ltot, operator literals never become keywords, and from then on exactly the identifiers equal to a registered keyword are reported with its token while every other token is unchanged.", "quantifier": "all sequences of Ltot calls interleaved with scans", "why_tests_cant": "Histories of registrations are unbounded.", "anchors": ["tpl/compiler.go: AutoKwScanner.Ltot, Ttol, Scan"]}
{"id": "C15", "title": "Line table is exact", "statement": "After scanning to EOF the file's line starts are offset 0 and exactly the offsets following a newline byte (below the file size), so for every offset inside the file Line(pos) is 1 + the number of newlines before pos (in files without //line comments), even though look-ahead for semicolon insertion scans text twice.", "quantifier": "all byte strings, all modes", "why_tests_cant": "Line bookkeeping is affected by back-tracking in the scanner, on arbitrary texts.", "anchors": ["tpl/scanner.go: next, findLineEnd", "tpl/grammar.go: FileLine"]}
{"id": "C16", "title": "Match never reads or consumes beyond its input", "statement": "For every grammar and token slice, a Match that returns reports 0 <= n <= len(src), in the success and in the failure case.", "quantifier": "all grammars (any nesting, any variables), all token slices, all actions", "why_tests_cant": "Quantifies over all grammars.", "anchors": ["tpl/grammar.go: Grammar.Match of every combinator"]}
{"id": "C17", "title": "Matching is PEG matching", "statement": "The outcome of Match (success with n tokens, failure, or fail-fast abort) is exactly the one given by the declarative ordered-choice, greedy-repetition semantics of the operators documented in the README, and is unique.", "quantifier": "all grammars, all token slices", "why_tests_cant": "An equivalence between two semantics over all grammars and inputs.", "anchors": ["tpl/grammar.go: all Match methods", "tpl/README.md: composite rules"]}
{"id": "C18", "title": "List operator laws", "statement": "G1 % G2 behaves as G1 *(G2 G1), G1 %= G2 as ?(G1 % G2), +G as G *G: same consumption, same success and same sequence of action calls.", "quantifier": "all grammars G1, G2, G and all inputs", "why_tests_cant": "Algebraic laws over all grammars.", "anchors": ["tpl/grammar.go: grList.Match, grRepeat1.Match, grRepeat0.Match, grRepeat01.Match"]}
{"id": "C19", "title": "Peek and Not look ahead without consuming", "statement": "@G succeeds iff G succeeds, ~G succeeds iff G fails, both consume 0 tokens; @@G = @G, ~~G = @G on outcomes.", "quantifier": "all grammars and inputs", "why_tests_cant": "All grammars.", "anchors": ["tpl/grammar.go: grPeek.Match, grNot.Match"]}
{"id": "C20", "title": "Ordered choice takes the first matching alternative", "statement": "G1|...|Gn succeeds with the result of the first alternative that succeeds, all earlier alternatives having failed and no later one having been tried; if all fail the reported n is the largest progress of any alternative and the reported error is that alternative's own error when it is the only one to reach the (positive) maximum, otherwise an error about the whole choice.", "quantifier": "all lists of alternatives, all inputs", "why_tests_cant": "All grammars and all positions of the first success.", "anchors": ["tpl/grammar.go: grOr.Match"]}
{"id": "C21", "title": "Fail-fast cannot be caught by alternatives", "statement": "If in a sequence G1 ... ! ... Gn an element after the ! fails, the whole Match aborts with a panic carrying a MatchError for that sequence, whatever choices, repetitions, options or look-aheads enclose it.", "quantifier": "all enclosing grammars, all inputs", "why_tests_cant": "All contexts.", "anchors": ["tpl/grammar.go: grAnd.Match"]}
{"id": "C22", "title": "Len seen by an action is the repetition count of that very match", "statement": "When an action attached to *G, +G, ?G, G1 % G2 or G1 %= G2 runs, Len() of the grammar it receives is the number of G (G1) matched by that match, even when the same rule was matched recursively inside it or earlier.", "quantifier": "all grammars including recursive ones, all inputs", "why_tests_cant": "Len is mutable state in the shared grammar; recursion depth is unbounded.", "anchors": ["tpl/grammar.go: grRepeat0.Match, grRepeat1.Match, grRepeat01.Match, grList.Match, grAction.Match, Len"]}
{"id": "C23", "title": "Actions run once per successful match with exactly the matched tokens", "statement": "The final state is obtained by folding the actions over the trace of the declarative semantics: an action runs exactly when its rule has just matched, with exactly the matched tokens, in completion order (inner before outer, left before right), and actions run inside alternatives that later fail are not undone.", "quantifier": "all grammars, all inputs, all action functions", "why_tests_cant": "All grammars and all action functions.", "anchors": ["tpl/grammar.go: grAction.Match"]}
{"id": "C24", "title": "Matching well-formed grammars terminates", "statement": "If a grammar has no left recursion and no repetition of something that can match empty (a decidable check), Match returns for every token slice.", "quantifier": "all grammars passing the check, all inputs", "why_tests_cant": "Termination is not observable by testing.", "anchors": ["tpl/grammar.go: all Match methods, GrVar"]}
{"id": "C25", "title": "Repetition of an empty match never returns", "statement": "If G succeeds without consuming on some input (and its actions do not stop it), Match of *G, +G on that input does not terminate; likewise a rule that starts with itself.", "quantifier": "all grammars G and inputs where G matches empty", "why_tests_cant": "Non-termination cannot be tested.", "anchors": ["tpl/grammar.go: grRepeat0.Match, grRepeat1.Match, grList.Match"]}
{"id": "C26", "title": "Matching leaves no state behind in the grammar", "statement": "The result, error and action calls of a Match do not depend on earlier matches with the same compiled grammar.", "quantifier": "all histories of matches, all grammars, all inputs", "why_tests_cant": "Grammar objects carry mutable length fields; histories are unbounded.", "anchors": ["tpl/grammar.go: len fields of grRepeat0, grRepeat1, grRepeat01, grList"]}
{"id": "C27", "title": "Transactions are balanced", "statement": "For every successful or failed (not aborted) match each begin of a Transaction is followed by exactly one end with begin's value and the success status of that very rule, properly nested.", "quantifier": "all grammars, all inputs", "why_tests_cant": "Nesting and back-tracking depth are unbounded.", "anchors": ["tpl/grammar.go: grTrans.Match"]}
{"id": "C28", "title": "MatchExactly accepts iff the root rule consumes every token", "statement": "MatchExactly returns nil iff tokenizing succeeds and the root grammar matches exactly all tokens; Match returns the unconsumed suffix of the tokens; without a grammar both return ErrNoGrammar.", "quantifier": "all matchers, all source texts", "why_tests_cant": "All grammars and texts.", "anchors": ["tpl/match.go: Matcher.Match, MatchExactly, Eval"]}
{"id": "C29", "title": "Source returns the source text of a token range", "statement": "For any contiguous sub-slice of the tokens returned by Tokenize, Source returns the bytes from the first token's position up to the position of the token following the range (or EOF), without panicking.", "quantifier": "all texts, all sub-ranges", "why_tests_cant": "All ranges of all texts; relies on the hidden EOF element past the end of the slice.", "anchors": ["tpl/grammar.go: Source", "tpl/match.go: Tokenize"]}
{"id": "C30", "title": "Formatting a match error never panics", "statement": "Error() of a MatchError returned by a matcher returns a text. Error() of a MatchError raised by a fail-fast sequence panics exactly when the sequence failed at the end of a non-empty rest of the input (the index after the error position is out of range), and returns a text otherwise.", "quantifier": "all grammars, all texts, all match errors", "why_tests_cant": "The bad index needs a failure exactly at the end of input in a fail-fast sequence.", "anchors": ["tpl/grammar.go: MatchError.Error, calcErrorInfo, nextLines"]}
{"id": "C31", "title": "Compiling terminates on every grammar text", "statement": "Compiler.Cl returns (or panics) on every byte string, for any marker that returns.", "quantifier": "all grammar source texts", "why_tests_cant": "Termination over all texts.", "anchors": ["tpl/compiler.go: Compiler.Cl"]}
{"id": "C32", "title": "The compiler builds the grammar its syntax denotes", "statement": "For every grammar source written with the documented operators, Cl builds exactly the grammar given by the documented precedence and associativity (prefix operators, then left-associative % %= and /mark, then juxtaposition with !, then |).", "quantifier": "all grammar expressions of any depth", "why_tests_cant": "All grammar expressions.", "anchors": ["tpl/compiler.go: Compiler.Cl (list, list0, mark, and, or, assign, ident, gr, repeat0..peek)", "tpl/README.md"]}
{"id": "C33", "title": "Only documented syntax compiles", "statement": "If Cl succeeds, the token sequence of its input is a non-empty sequence of rules IDENT '=' grammar ';' in the documented syntax, and the result is the one those rules denote.", "quantifier": "all grammar source texts", "why_tests_cant": "Soundness over all texts.", "anchors": ["tpl/compiler.go: Compiler.Cl"]}
{"id": "C34", "title": "A compiled grammar has no dangling rule", "statement": "If Cl succeeds, every rule variable reachable in the result is assigned, so matching never reports 'variable is not assigned'.", "quantifier": "all grammar sources, all inputs matched with the result", "why_tests_cant": "All grammars and all inputs.", "anchors": ["tpl/compiler.go: Compiler.Cl", "tpl/grammar.go: GrVar.Match"]}
{"id": "C35", "title": "A grammar that defines doc compiles", "statement": "If a syntactically valid source defines a rule doc exactly once and defines every rule it uses, Cl succeeds. (False: when doc is used before or inside its own definition it is kept as a variable and Cl reports ErrNoDoc.)", "quantifier": "all grammar sources", "why_tests_cant": "Depends on order of use and definition across the whole source.", "anchors": ["tpl/compiler.go: Compiler.Cl ident, assign, grammars[\"doc\"]"]}
{"id": "C36", "title": "Markers see each mark once", "statement": "For every G/mark in the source the Marker is called exactly once, with the grammar built for G and the mark's name, in source order of completion, and its result replaces G.", "quantifier": "all grammar sources, all markers", "why_tests_cant": "All sources and markers.", "anchors": ["tpl/compiler.go: Compiler.Cl mark, Marker"]}
{"id": "C37", "title": "Code prints a grammar that means the same", "statement": "Compiling the text printed by Code for a compiled rule gives back the same rule up to flattening of sequences/choices and dropped ! and marks; the rules so compiled match what the printed ones match and fail where they fail, and nothing else when there is no !. (False for a list whose separator is a list, and for + directly under +.)", "quantifier": "all grammars", "why_tests_cant": "All grammars.", "anchors": ["tpl/grammar.go: Marshal methods, Code"]}
{"id": "C38", "title": "The documented special tokens work in grammar text", "statement": "EOF in a grammar text matches the end of input and operator names such as ADD denote operators. (False: EOF compiles to a token that never occurs; ADD is rejected.)", "quantifier": "all inputs matched by such grammars", "why_tests_cant": "That no input at all is matched is a universal statement.", "anchors": ["tpl/compiler.go: ident", "tpl/token.go: Lit2Token", "tpl/README.md: special tokens"]}
{"id": "C39", "title": "Mute counter semantics", "statement": "With mute count 0 every marked action runs; with count 1 exactly the actions whose mark starts with '_' run; with count > 1 none runs; _mute and _unmute always run and add +1/-1; Init resets the count to 0.", "quantifier": "all mark names, all mute counts, all traces", "why_tests_cant": "All interleavings of marks.", "anchors": ["tpl/interpreter/interpreter.go: New marker/initer", "tpl/README.md: _mute"]}
{"id": "C40", "title": "Calculator evaluates arithmetic exactly as written", "statement": "For every arithmetic expression over numbers, + - * / (%), unary signs, parentheses and function calls, evaluating its text with the calculator succeeds and Ret gives the value of the expression with the usual precedence and left associativity (exact rationals for rat).", "quantifier": "all expressions of any depth, any previous stack contents", "why_tests_cant": "All expressions.", "anchors": ["tpl/rat/big.go: Grammar, Fntable, Stack", "tpl/number/number.go: Grammar, Fntable, Stack", "tpl/cmplx/cmplx.go"]}
{"id": "C41", "title": "Calculator accepts only expressions", "statement": "If Eval returns nil, the tokens form an expression of the grammar and the stack is the previous stack plus exactly its value.", "quantifier": "all source texts, any previous stack", "why_tests_cant": "All texts.", "anchors": ["tpl/number/number.go: Grammar", "tpl/rat/big.go: Grammar", "tpl/interpreter/interpreter.go: New"]}
{"id": "C42", "title": "Function call protocol", "statement": "Call/DoCall/VCall check the argument count against the function type (exactly n, or at least n-1 for variadic ones), pass the top arity stack values in order, push the results, leave the rest of the stack untouched, and report an error on a short stack without popping.", "quantifier": "all stacks, all function types, all arities", "why_tests_cant": "All stacks and signatures.", "anchors": ["tpl/interpreter.util/call.go: Call, DoCall, VCall, validateType", "tpl/number/number.go: PopArgs, PushRet"]}
{"id": "C43", "title": "ParseInt reads every integer token", "statement": "For every INT token the scanner returns without error, ParseInt returns the value of the Go integer literal (decimal, octal with leading 0, hex with 0x) when it fits in int64 and a range error otherwise.", "quantifier": "all INT literals", "why_tests_cant": "All literals.", "anchors": ["tpl/interpreter/interpreter.go: ParseInt", "tpl/scanner.go: scanNumber"]}
{"id": "C44", "title": "ParseFloat agrees with ParseInt on integer tokens", "statement": "For every INT token, ParseFloat returns the nearest float of the integer's value. (False: an octal literal beyond int64 is silently read as decimal.)", "quantifier": "all INT literals", "why_tests_cant": "Needs a literal beyond 64 bits in octal.", "anchors": ["tpl/interpreter/interpreter.go: ParseFloat"]}
{"id": "C45", "title": "EvalCode restores interpreter and mute state", "statement": "After EvalCode, whether it returned nil, returned an error or panicked, the engine's current interpreter and mute count are what they were before; during it the given interpreter is current.", "quantifier": "all code fragments, all nested evaluations", "why_tests_cant": "All executions including panics.", "anchors": ["tpl/interpreter/interpreter.go: Engine.EvalCode"]}
{"id": "C46", "title": "Runtime errors are wrapped exactly once", "statement": "A panic raised by an action surfaces as a RuntimeError carrying the tokens of the innermost marked rule; RuntimeErrors and MatchErrors pass through enclosing actions unchanged; panics that are neither strings nor errors pass unwrapped.", "quantifier": "all nestings of actions, all panic values", "why_tests_cant": "All nestings.", "anchors": ["tpl/interpreter/interpreter.go: action recover"]}
{"id": "C47", "title": "Extraction result reflects the insertion history", "statement": "For the sequence of leaf and node insertions performed, the result map has for each tag the value of the oldest insertion (scalar tag) or the oldest maximal run of consecutive insertions of that array tag, in insertion order.", "quantifier": "all insertion sequences, all nesting depths", "why_tests_cant": "All histories.", "anchors": ["tpl/extractor/document.go: Node.toMap, arrayCollect, insertLeaf, insertNode"]}
{"id": "C48", "title": "Array extraction keeps every element", "statement": "Every value extracted for an array mark appears in the result array. (False: elements of an array interrupted by another tag are lost.)", "quantifier": "all documents", "why_tests_cant": "Depends on interleaving of tags in the document.", "anchors": ["tpl/extractor/document.go: toMap, arrayCollect"]}
{"id": "C49", "title": "A failed node leaves no trace", "statement": "When a rule marked xxx_Node or xxx_NodeArray fails, the document under construction is exactly what it was before the rule was tried, including everything inserted in nested rules.", "quantifier": "all grammars, all inputs, all nesting", "why_tests_cant": "Back-tracking over arbitrary grammars.", "anchors": ["tpl/extractor/extractor.go: Transaction marker, transCtx"]}
{"id": "C50", "title": "Extraction marks are decoded as documented", "statement": "xxx_T, xxx_Ts and xxx_TArray name tag xxx, type T and scalar/array; a mark without underscore panics; the tag may itself contain underscores.", "quantifier": "all mark strings", "why_tests_cant": "All strings.", "anchors": ["tpl/extractor/extractor.go: marker"]}
{"id": "C51", "title": "Each Parse starts from an empty document", "statement": "The result of Parse depends only on the grammar and the text, not on earlier (successful, failed or panicked) parses with the same engine.", "quantifier": "all histories", "why_tests_cant": "All histories.", "anchors": ["tpl/extractor/extractor.go: initer, Parse, SafeParse"]}
{"id": "C52", "title": "qlang integer arithmetic is two's complement", "statement": "+ - * / % ++ -- and unary - on ints are the Go int64 operations (wrap-around, truncated division, panic on zero divisor); on ints and floats mixed the int is converted; all other operand types panic.", "quantifier": "all pairs of values", "why_tests_cant": "2^128 operand pairs.", "anchors": ["tpl/qlang/lib/builtin/number.go: Add, Sub, Mul, Quo, Mod, Inc, Dec, Neg"]}
{"id": "C53", "title": "qlang comparison is a total order on numbers", "statement": "Exactly one of a<b, a==b, a>b holds for ints (bytes and ints alike), <= is < or ==. (False across byte/int and int/float because == also compares types.)", "quantifier": "all pairs of numeric values", "why_tests_cant": "All pairs.", "anchors": ["tpl/qlang/lib/builtin/boolean.go: LT, GT, LE, GE, EQ, NE"]}
{"id": "C54", "title": "max and min", "statement": "max/min of a non-empty argument list of ints is the greatest/least element, mixed int/float lists are converted to float, other kinds panic; result is an element of the list.", "quantifier": "all argument lists", "why_tests_cant": "All lists.", "anchors": ["tpl/qlang/lib/builtin/number.go: Max, Min, kindOfArgs, maxInt, minInt", "tpl/number/number.go: Max, Min", "tpl/rat/big.go: Max, Min"]}
{"id": "C55", "title": "Function calls balance the stack and bind arguments", "statement": "Calling a qlang function with n arguments (at least n-1 when variadic) evaluates its body with exactly those bindings, returns the value given to return (nil without one) and leaves the value stack as before the call, also when the body panics; a wrong count panics before running anything.", "quantifier": "all functions, all argument lists, all bodies", "why_tests_cant": "All bodies including panicking ones.", "anchors": ["tpl/qlang/cl/function.go: Function.Call, Return"]}
{"id": "C56", "title": "Deferred calls run exactly once in reverse order", "statement": "When a function ends, normally, by return or by panic, its deferred expressions run once each, last registered first; recover() inside one clears the panic so that the caller continues.", "quantifier": "all bodies, all numbers of defers, all exit kinds", "why_tests_cant": "All bodies and exits.", "anchors": ["tpl/qlang/cl/function.go: Defer, ExecDefers, Recover, Function.Call"]}
{"id": "C57", "title": "Scoping of variables", "statement": "Reading a name finds the nearest enclosing definition (names starting with _ only in the current function); assigning a name that exists in an enclosing function and was not referenced before panics; after a reference it updates the enclosing variable; otherwise it is local and no other frame changes.", "quantifier": "all chains of frames, all names", "why_tests_cant": "Unbounded frame chains.", "anchors": ["tpl/qlang/cl/function.go: getRef, getVars, getVar, Assign, Inc, AddAssign"]}
{"id": "C58", "title": "Conditionals evaluate exactly the taken branch", "statement": "if/elif/else and switch evaluate conditions in order up to the first true one, then exactly its body (else/default body when none), nothing else, and leave one value on the stack.", "quantifier": "any number of branches, all condition outcomes", "why_tests_cant": "Unbounded branches.", "anchors": ["tpl/qlang/cl/ctrl.go: If, Switch"]}
{"id": "C59", "title": "Loops iterate exactly while the condition holds", "statement": "for evaluates init once, then cond, body, step repeatedly until cond is false, leaving nil on the stack and the rest of the stack unchanged.", "quantifier": "all iteration counts", "why_tests_cant": "Unbounded iterations.", "anchors": ["tpl/qlang/cl/ctrl.go: For, evalCondS"]}
{"id": "C60", "title": "Boolean operators short-circuit", "statement": "a && b evaluates b only if a is true, a || b only if a is false; a non-boolean a panics; the result is a boolean. (False: the right operand is not checked.)", "quantifier": "all operand codes and values", "why_tests_cant": "All operand programs.", "anchors": ["tpl/qlang/cl/ctrl.go: And, Or"]}
{"id": "C61", "title": "Importing never replaces an existing symbol", "statement": "Import with an empty module name only adds symbols or replaces unimplemented placeholders, and panics when a symbol exists; with a module name it panics if the name exists; symbols not in the imported table never change.", "quantifier": "all tables, all import histories", "why_tests_cant": "All histories.", "anchors": ["tpl/qlang/spec/spec.go: Import"]}
{"id": "C62", "title": "Multiple assignment", "statement": "a, b, ... = expr assigns the i-th element of the slice to the i-th name when lengths agree and otherwise reports an error without assigning anything.", "quantifier": "all name lists and slices", "why_tests_cant": "All lengths.", "anchors": ["tpl/qlang/cl/function.go: MultiAssign", "tpl/qlang/cl/qlang.go: popFnArgs"]}
{"id": "C63", "title": "Returned Go values are normalised", "statement": "Values returned by Go functions arrive as int for every integer kind except byte, as float64 for float kinds, unchanged otherwise; several results become a slice. (False: bytes become ints.)", "quantifier": "all kinds of values", "why_tests_cant": "All kinds.", "anchors": ["tpl/qlang/cl/qlang.go: castVal, PushRet"]}
{"id": "C64", "title": "Generated static compiler builds the same grammar", "statement": "For every grammar source accepted by Cl, the expression text generated for each rule denotes the grammar Cl builds for it. (False for +G, for multi-character operators and keywords.)", "quantifier": "all grammar sources", "why_tests_cant": "All sources.", "anchors": ["tpl/generator/static_parser_gen.go: GenStaticCode"]}
{"id": "C65", "title": "No reported error means well-formed text", "statement": "If scanning to EOF reports no error, the source (after an optional leading byte order mark) is valid UTF-8 without NUL bytes or inner byte order marks, every comment is closed, every string, raw string and char literal is closed with legal escapes, and every number is well formed.", "quantifier": "all byte strings, all modes", "why_tests_cant": "An error could be missed on texts no test contains.", "anchors": ["tpl/scanner.go: Scan, scanNumber, scanRune, scanString, scanRawString, scanEscape, scanComment"]}
{"id": "C66", "title": "The lexical specification determines the token sequence", "statement": "There is at most one way to split a source into gaps and lexemes according to the lexical rules, and the scanner returns that one.", "quantifier": "all byte strings and all decompositions", "why_tests_cant": "Uniqueness of a decomposition ranges over all alternatives.", "anchors": ["tpl/scanner.go: Scan"]}
{"id": "C67", "title": "Tokenize accepts exactly the well-formed texts", "statement": "Tokenize succeeds exactly on the texts that are valid UTF-8 without NUL or inner byte order mark and whose unique decomposition consists of closed comments and well-formed lexemes only.", "quantifier": "all byte strings, all modes", "why_tests_cant": "Spurious errors on texts no test contains.", "anchors": ["tpl/scanner.go: Scan", "tpl/match.go: Matcher.Tokenize"]}
{"id": "C68", "title": "FileLine counts newlines", "statement": "FileLine of a non-empty token range of a tokenized text (without //line comments) is one plus the number of newline bytes before its first token.", "quantifier": "all byte strings, modes and token ranges", "why_tests_cant": "Positions depend on back-tracking in the scanner on arbitrary texts.", "anchors": ["tpl/grammar.go: FileLine"]}
{"id": "C69", "title": "EvalSub evaluates exactly one named rule", "statement": "CompileRet.EvalSub(name, src) returns nil exactly when name is a rule that was complete when used and that rule consumes all of src; Init runs for a token slice and not for a text; other names give ErrNoGrammar. For a token slice it fails with the error of the rule, or, if the rule leaves tokens over, with the error that the end was expected, about the whole slice.", "quantifier": "all compiled grammars, names, texts and token slices", "why_tests_cant": "All grammars and inputs.", "anchors": ["tpl/compiler.go: CompileRet.EvalSub"]}
{"id": "C70", "title": "What the text of a match error quotes", "statement": "The text quoted by Error() of a MatchError starts at the first token of the input that was being matched and is the longer of its first nine lines and everything before the token behind the offending one; the reported line is the line of the offending token.", "quantifier": "all grammars, all texts, all match errors over tokens of the text", "why_tests_cant": "Depends on the layout of the whole text and of the position of the error.", "anchors": ["tpl/grammar.go: MatchError.Error, calcErrorInfo, nextLines"]}
{"id": "C71", "title": "What marked values are read as in extraction; Int in base 10", "statement": "A value marked Int of an INT token is the literal's decimal value when it fits int64; a literal with a leading 0 is read as decimal too, and a hexadecimal one makes Parse panic. A String or Float has the value Go's strconv gives the literal, a Char must be one byte, a Text is the literal itself; what strconv refuses and every other type panic. (That the value is the one the literal has in Go is false.)", "quantifier": "all INT tokens of all texts", "why_tests_cant": "All literals.", "anchors": ["tpl/extractor/extractor.go: GetValue"]}
{"id": "C72", "title": "SafeExec turns panics into errors and runs what was deferred", "statement": "SafeExec of a program runs the expressions it deferred at the top level once each, last deferred first, however the program ended except by exiting, and leaves none deferred; a panic with a string or an error that none of them recovers is returned as the error, a recovered one gives nil. (That it never panics is false: other panic values and panics of deferred expressions come through, and after the latter the deferred expressions run again.)", "quantifier": "all program texts, all states of the engine, all libraries", "why_tests_cant": "All programs and ways of ending them.", "anchors": ["tpl/qlang/engine.go: SafeExec, Exec", "tpl/qlang/cl/function.go: ExecDefers"]}
{"id": "C73", "title": "Classes and objects", "statement": "A class has exactly the methods declared in it, the last of each name; new makes an object that did not exist, without variables, and calls the constructor with the object before the arguments; a member is the variable of that name, else the method bound to the object; calling a bound method passes the object first; set changes exactly the named variables of that one object and refuses names of methods.", "quantifier": "all classes, objects, names, arguments and states", "why_tests_cant": "All sequences of declarations, members and values.", "anchors": ["tpl/qlang/cl/class.go: Class, New, MemberRef, MemberFuncDecl, SetMemberVar, thisDeref.Call", "tpl/qlang/lib/builtin/builtin.go: Set"]}
{"id": "C74", "title": "A qlang text does what its constructs say", "statement": "Evaluating a well-formed qlang text runs exactly its constructs, in the order written, with the values of their parts: tentative matches, alternatives the parser gave up, and code that is only collected for later leave no effect; and no text has two meanings. No well-formed text is refused, and a text that is accepted is well-formed, or has an index with no or two expressions and no colon, or a return statement in the header of a for.", "quantifier": "all well-formed token sequences (and texts), all texts that are accepted, all states, frames and libraries", "why_tests_cant": "All programs; the engine executes actions while it is still parsing and backtracking.", "anchors": ["tpl/qlang/cl/qlang.go: Grammar", "tpl/interpreter/interpreter.go: Engine.EvalCode", "tpl/qlang/engine.go: Exec", "tpl/grammar.go: Match"]}
{"id": "C75", "title": "Values of qlang expressions", "statement": "An expression of literals, variables, parentheses, unary and binary operators evaluates to the value that precedence (* / %, then + -, then comparisons, &&, ||) and left associativity give, operands left to right, && and || skipping the right operand when the left one decides; the first operation that fails is the panic; either way no variable is changed. x = e at the top level gives x that value and changes nothing else; if e panics, nothing changes but that values may be left on the stack.", "quantifier": "all expressions, states, frames and libraries", "why_tests_cant": "All expression trees and values.", "anchors": ["tpl/qlang/cl/qlang.go: Grammar", "tpl/qlang/lib/builtin/number.go", "tpl/qlang/cl/qlang.go: Ref, Assign"]}
{"id": "C76", "title": "Programs keep the engine's stack in order", "statement": "Executing a well-formed qlang program either leaves exactly one value more on the evaluation stack or panics with everything below still there, whatever functions, loops, deferred expressions and recovers it goes through; the machine never complains of its own stack (no arity, unexpected argument count, stack damaged); and an engine on which any sequence of such programs has run, however each ended, and whose variables were set and values taken by the host in between, can run the next.", "quantifier": "all well-formed programs, all states reached by any history of them, all libraries that return well-formed values, any bound on steps", "why_tests_cant": "All programs, all ways and points of failing, and all histories of runs on one engine.", "anchors": ["tpl/qlang/cl/qlang.go: Push, Pop, popArity, popNArgs, popFnArgs", "tpl/qlang/cl/function.go: Function.Call, SetFrame, ExecDefers", "tpl/qlang/cl/ctrl.go: If, Switch, For", "tpl/qlang/engine.go: Exec, SafeExec"]}
{"id": "C77", "title": "Slices of qlang programs", "statement": "slice, sliceFrom, get, set, sub (a[i:j]), append and cap behave as Go slices, shared storage included: get and set accept exactly the indices below the length; set is seen by every slice that has that place and changes nothing else; a[i:j] shares its storage, and extends to the capacity; append puts the values, converted to the element type, after the elements, in place if they fit (and then other slices that have these places see them) and in new storage otherwise; slice and sliceFrom make new storage, of the common type of the arguments; after any history of calls, panicking ones included, every slice is within its storage and holds elements of its type. (That append leaves other slices alone is false, and so is that any value can be set in a slice of var.)", "quantifier": "all slices after all histories of calls, all indices, bounds, values and element types, all growth policies of the runtime", "why_tests_cant": "All histories of calls and all ways slices can share storage.", "anchors": ["tpl/qlang/lib/builtin/builtin.go: Slice, SliceFrom, Get, Set, SubSlice, Append, appendFloat, Len, Cap", "tpl/qlang/lib/builtin/types/types.go: Reflect", "tpl/qlang/lib/builtin/number.go: kindOfArgs"]}
{"id": "C78", "title": "Maps of qlang programs", "statement": "After set(m, k, v), get(m, k') is v for every key equal to k (the zero value if v is nil, and undefined if it was), through every reference to that map, and everything else is as before; delete is setting undefined; get gives undefined exactly for the keys that are not there; len counts the keys; mkmap gives an empty new map and mapFrom one with the last value of each key, of the common type of the values; what is refused changes nothing. (That get returns what was set is false for NaN.)", "quantifier": "all maps after all histories of calls, all keys and values, all key and element types", "why_tests_cant": "All histories of calls and all references to a map.", "anchors": ["tpl/qlang/lib/builtin/builtin.go: Mkmap, MapOf, MapFrom, Delete, Set, Get, Len", "tpl/qlang/lib/builtin/number.go: kindOf2Args", "tpl/qlang/lib/builtin/types/types.go: Reflect"]}
{"id": "C79", "title": "How a program ends the process", "statement": "A return outside of functions and the main statement never come back. return runs what was deferred, once each and the last first, and then ends the process with status 0 for nil or nothing and z for the int z; another value is a panic instead. main runs its body as a function call, with its deferred expressions, and ends the process with the status of what it returned, again a panic for other values. Once the process ends nothing runs: no deferred expression of the calls around it, and recover cannot stop it.", "quantifier": "all returns outside of functions and all mains, all values returned, all deferred expressions, all enclosing calls", "why_tests_cant": "All combinations of deferred expressions, values and nested calls; the process is gone afterwards.", "anchors": ["tpl/qlang/cl/function.go: Return, Main, ExecDefers, Function.Call"]}
{"id": "C80", "title": "Interpreters written in qlang", "statement": "The interpreter package for qlang programs: New gives an engine exactly when the object has methods stack (an object), fntable (a map) and grammar (a string that compiles) and every mark of the grammar is either _mute, _unmute or _tr without an entry or has an entry that is a function, not variadic, with parameters, at most two if it is a method of the stack's or the interpreter's class; otherwise it returns an error, and it always ends. A method of the stack or of the interpreter is called with the stack or the current interpreter and, if it has two parameters, with the length, the tokens, the engine, a number or the text of the first token, as the mark's spelling says; any other function gets what popArgs of the stack returns and its result is pushed. Marks act when not muted; every Exec starts unmuted; during EvalCode the interpreter is the given object and after it, however it ended, the one of before, and so is the mute count. Exec returns the panics that are strings or errors. (That marks ...Int read integer literals as ParseInt does is false.)", "quantifier": "all programs that write an interpreter, all tables, grammars, marks, texts and matches, all states", "why_tests_cant": "All interpreters: grammar, table and methods are the user's program.", "anchors": ["tpl/qlang/cl/interpreter/interpret.go: New, newEngine, Exec, Eval, EvalCode, call, callN, callFn, callVfn, lastWord"]}
{"id": "C81", "title": "Which marks interpreter.New accepts", "statement": "interpreter.New accepts a mark exactly when it is _mute, _unmute or _tr and not in the function table, or its entry is a function, not variadic, with at least one parameter, and if the first parameter is the stack's or the interpreter's type, at most three parameters and no result but an error, and the mark is not empty or _ alone; a grammar is accepted exactly when it compiles and all of its marks are, and what is compiled does not depend on the table.", "quantifier": "all function tables, marks and grammar texts", "why_tests_cant": "All tables and all grammars.", "anchors": ["tpl/interpreter/interpreter.go: New"]}
{"id": "C82", "title": "//line comments", "statement": "A comment //line name:n at the start of a line, n a positive decimal int, makes the position of every offset from the next line on (name, n plus the lines in between), up to the next such comment; above the first one it is the file's own name and line. No other text does: not in a block comment or string, not behind other text on the line, not with another number. The scanner mode does not matter. FileLine gives that line but always the file's own name; in a file with CRLF line ends these comments have no effect.", "quantifier": "all texts, all scanner modes, all offsets, all numbers of such comments", "why_tests_cant": "All texts: which //line is a comment at the start of a line depends on everything before it.", "anchors": ["tpl/scanner.go: interpretLineComment, scanComment, prefix", "tpl/grammar.go: FileLine"]}
{"id": "C83", "title": "What tplconv writes, and what a failure leaves", "statement": "tplconv converts its files one after the other up to the first that fails: status 0 if all succeed, 2 if one fails (the files after it are not touched), 1 without files. A file from which no document can be extracted (not readable, no extension, no template for it, not matched) leaves everything as it was and is refused with a message that says which of these it is. Otherwise the document goes to standard output or, with -ext, to file.ext; no other file changes. JSON output is the document's text and always counts as success; a template's output is written up to its first error and succeeds exactly without one. An unknown output format fails, but only after file.ext has been emptied. Each file gets the output it would get alone unless an output is one of the files read.", "quantifier": "all files, documents, templates, formats, extensions, argument lists and outcomes of writing", "why_tests_cant": "All file systems and failures of writing; tests would have to run the command.", "anchors": ["tpl/cmd/tplconv/tplconv.go: main, processFile, printJson, makeHtmlTempl, outTemplates, outInternals"]}
{"id": "C84", "title": "Which grammar tplgen takes, and what it leaves", "statement": "tplgen takes the literal that stands opposite the grammar's name at the first place in the package (variable and constant declarations and assignments at the top level or directly in a function) where one does; it panics if before that the name stands without a value or a function has no body; otherwise it reports that there is none. The generator gets the bytes between the quotes, which are the value of the literal exactly if it is raw or has no escapes. The order in which packages and files are visited does not matter if only one file mentions the name. The output file holds the generated code exactly after a success; after a failure its old contents are gone. No other file changes.", "quantifier": "all packages (syntax trees), names, literals, orders of iteration, outcomes of the file operations", "why_tests_cant": "All packages and all iteration orders of Go's maps.", "anchors": ["tpl/cmd/tplgen/main.go: main, findInGenDecl, findInAssignment, findInDecl", "tpl/generator/static_parser_gen.go: GenStaticCode"]}
{"id": "C85", "title": "A calculator session answers each line on its own", "statement": "The interactive calculators (float, rational, complex) answer every line: nothing to a blank line, the value to a line whose tokens are an expression with a value, an error to any other. The answer depends on the line alone: not on earlier lines, not on what failed evaluations left on the stack.", "quantifier": "all sequences of lines, all states of the calculator", "why_tests_cant": "All histories: an error half way through an expression leaves operands behind.", "anchors": ["tpl/examples/calculator/main.go: eval, main", "tpl/examples/ratcalc/bigcalc.go: eval", "tpl/examples/cmplxcalc/cmplx_calc.go: eval", "tpl/number/number.go: Calculator.Ret"]}
{"id": "C86", "title": "A generated interpreter evaluates like the one of interpreter.New", "statement": "The interpreter that tplgen -i writes for a grammar evaluates every text and every piece of code as the engine of interpreter.New does, to the same state, error or panic, if numbers are wanted of number tokens only, no function wants a *Context or *FileLine, and integers are written in decimal. It differs in these points: octal literals are read in decimal and hexadecimal ones are errors; functions on the stack or interpreter with three parameters are refused when it is made; a *Context parameter raises a RuntimeError, and a *FileLine parameter works (New raises one).", "quantifier": "all function tables, grammars, texts, code slices and states", "why_tests_cant": "All grammars and texts: the two are changed copies of one another.", "anchors": ["tpl/cmd/tplgen/output.tpl: NewStaticInterpreter, GetValue, EvalCode", "tpl/interpreter/interpreter.go: New, GetValue, EvalCode"]}
{"id": "C87", "title": "Source, FileLine and error texts speak about the text scanned last", "statement": "A matcher or engine keeps only the last text it scanned; matching tokens scanned before changes nothing about it. Source, FileLine, MatchError.Error and RuntimeError.Error of tokens read that text: Source of a token range is the range of the same positions in the last text, right exactly if the last text has the same bytes there, and a panic if it ends before; FileLine and RuntimeError name the last text's file and the line that its //line comments give the position; MatchError.Error panics exactly if the last text is shorter than the one that was matched, and otherwise quotes the last one. As long as the matched text is the last one, the line is that of the offending token and the quotation starts at the first token that was being matched.", "quantifier": "all texts, token ranges, error positions and histories of texts and token slices", "why_tests_cant": "All histories: which text was scanned last depends on everything done with the engine, such as actions that evaluate other texts.", "anchors": ["tpl/grammar.go: Source, FileLine, MatchError.Error, calcErrorInfo", "tpl/interpreter/interpreter.go: RuntimeError.Error", "tpl/match.go: Matcher.Tokenize", "tpl/compiler.go: EvalSub", "tpl/scanner.go: Init, Source"]}
{"id": "C88", "title": "Integers up to 2^53 are exact in float64 calculations", "statement": "A text that is an expression of integers (+, -, *, %, unary minus, exact /, max, min, abs, mod) evaluates in the number calculator to exactly its value over the integers, as long as no literal or intermediate result exceeds 2^53 in absolute value. The same holds of qlang's +, -, *, exact / and comparisons whenever a float64 is involved. max and min are one of their arguments and none of the others is greater (less), if there is no NaN. inf(a) is negative exactly for a < 0. Beyond 2^53 this fails: 9007199254740992 + 1 is 9007199254740992.", "quantifier": "all texts, all integers up to 2^53, all float64 values", "why_tests_cant": "Every rounding of every operation, sign of zero included: 2^106 pairs of operands.", "anchors": ["tpl/number/number.go: Max, Min, Inf, Neg, Mul, Quo, Mod, Add, Sub, Grammar, Fntable", "tpl/interpreter/interpreter.go: ParseFloat", "tpl/qlang/lib/builtin/number.go: Add, Sub, Mul, Quo", "tpl/qlang/lib/builtin/boolean.go: LT, GT, LE, GE"]}
{"id": "C89", "title": "Gaussian integers are exact in the complex calculator, and complex(real(x), imag(x)) is x", "statement": "A text that is an expression of Gaussian integers (+, -, *, unary minus, imaginary literals, real, imag, conj, complex) evaluates in the complex calculator to exactly its value, as long as no part, product or sum exceeds 2^53 in absolute value. For any expression x that has a value, complex(real(x), imag(x)) evaluates to the same value bit for bit (signs of zeros, infinities and NaN included), which real(x) + imag(x)*1i does not. complex(x, y) and rect(x, y) are defined exactly if the imaginary parts of x and y are zero of either sign and raise a RuntimeError otherwise.", "quantifier": "all texts, all Gaussian integers with parts up to 2^53, all complex128 values", "why_tests_cant": "Every rounding, sign of zero, infinity and NaN of four operations on two parts.", "anchors": ["tpl/cmplx/cmplx.go: Neg, Mul, Add, Sub, Real, Imag, Complex, Rect, PushReal, PushImag, Call, Grammar, Fntable"]}
{"id": "C90", "title": "The rational calculator is exact, and agrees with the others on integers", "statement": "An expression of decimal literals of any size evaluates in the rational calculator to exactly its mathematical value, in lowest terms with a positive denominator, and to nothing else; it fails at run time exactly if that value does not exist (division by zero, inv(0), unknown function, wrong number of arguments). num and denom are the numerator and denominator of the one fraction in lowest terms, max and min one of their arguments with none beyond it. On integer expressions up to 2^53 whose literals have no leading zeros, the number calculator gives the same integer, and without division and functions the complex calculator does as well. A literal such as 010 is 10 in the rational calculator and 8 in the number calculator.", "quantifier": "all texts with decimal literals, numbers of all sizes, all states", "why_tests_cant": "All sizes of numbers, and three implementations that have to agree.", "anchors": ["tpl/rat/big.go: Denom, Num, Abs, Inv, Neg, Mul, Quo, Add, Sub, Max, Min, PushString, Call, Ret, Grammar, Fntable", "tpl/number/number.go: Grammar", "tpl/cmplx/cmplx.go: Grammar"]}
{"id": "C91", "title": "A host program sees the variables of an engine as a map", "statement": "A Go program that uses an engine by SetVar, Var, SafeEval of expressions and of assignments x = e, and Ret after an evaluation without an error, in any order and number, sees exactly what a map from names to values would show: Var gives the value last set or assigned, or none; an evaluation gives the value of the expression in that map, or the error of the first operation that fails, and then no variable has changed. SetVar changes what functions see that have read the variable before. After any well-formed program that ended well, Ret gives the value of that program and removes everything that was above the base. After an evaluation that failed, Ret may give a value that evaluation left, and, if it failed inside && or ||, gives it again and again.", "quantifier": "all sequences of actions of the host, all expressions, all well-formed programs", "why_tests_cant": "All histories, including those with failed evaluations that leave values and a changed base behind.", "anchors": ["tpl/qlang/cl/qlang.go: Vars, Var, SetVar, Ret", "tpl/qlang/cl/function.go: SetFrame, Clear", "tpl/qlang/engine.go: SafeEval, SafeExec"]}
{"id": "C92", "title": "Programs without functions do what their statements say", "statement": "A qlang text made of assignments x = e, x++, x--, x op= e, expressions, if/elif/else, switch and for loops, run at the top level of an engine, has the outcome that its statements give one after another on a map of variables: an if runs the first branch whose condition is true, a switch the first case that is equal to its value, a loop its body and step while its condition is true; the value is that of the last statement (nil for a loop or an empty body); the first statement that panics ends the program with that panic, and the variables keep what was assigned before. A host that sets and reads variables and has such programs run in any order sees exactly this, also after programs that failed half-way.", "quantifier": "all such programs, all variables, all histories of a session, loops of any number of rounds and nested to any depth", "why_tests_cant": "All programs and inputs; each statement is evaluated by nested evaluations of pieces of code that share one stack with moving bases.", "anchors": ["tpl/qlang/cl/ctrl.go: If, Switch, For", "tpl/qlang/cl/function.go: Assign, Inc, Dec, AddAssign", "tpl/qlang/cl/qlang.go: Grammar", "tpl/interpreter/interpreter.go: EvalCode", "tpl/qlang/engine.go: Exec, SafeExec"]}
{"id": "C93", "title": "A program without functions ends in the engine exactly when its statements end", "statement": "Running a text on an engine in a given state has at most one result, however long one waits for it: a result seen after some number of steps is the one seen after any larger number. A program without functions (C92) comes to a result in the engine exactly if its statements, run one after another on a map of variables, come to one, and then it is that one; a program whose statements never end (for instance a loop whose condition stays true and whose body does not panic) never yields a value, an error or a panic, and neither does SafeExec, which cannot catch it.", "quantifier": "all texts and engine states (one result); all programs without functions (ending), including those with loops that never end", "why_tests_cant": "Non-termination has no finite test, and ending must agree for every program, state and number of rounds.", "anchors": ["tpl/interpreter/interpreter.go: EvalCode", "tpl/qlang/engine.go: Exec, SafeExec", "tpl/qlang/cl/ctrl.go: For"]}
{"id": "C94", "title": "Programs with functions do what their statements say", "statement": "A program of expressions, assignments, conditionals, switches, loops, function literals fn(a, b) { ... }, calls, slices and returns does to the variables what its statements say. Functions are values: they can be assigned, passed, returned and called wherever an expression may stand, as in n * fact(n - 1) or add(1)(2); operands and arguments are evaluated from left to right. A call runs the body with variables of its own: the parameters and what the body assigns. A name stands for a variable of the call itself, or, unless it begins with an underscore, for that of the nearest enclosing call in which the function was made, not of the caller. An assignment goes to a variable of the call itself, or to that of an enclosing call if the call has read it before; else, if an enclosing call has the variable, it is an error. The value of a call is what return gives, or nil; a call with a wrong number of arguments panics, and so does a call of nil, a bool, a number, a string or a slice, after its arguments have been evaluated; the last parameter of fn(a, rest...) is the slice of the arguments that are left, and f(a, l...) passes the items of the slice l as arguments, and panics if l is no slice; [a, b] is a slice of ints, of floats, of strings or of anything, depending on its items, and l[i] its i-th item or a panic; x, y = l assigns the items of the slice l to the names one after the other, and panics before any assignment if there are not as many items as names; expressions deferred by a call are evaluated in it when its body has ended, by a return, at its end or by a panic, the last one first, and a panic of one of them takes the place of the outcome and skips the others; panic(v), where v is nil, a bool, a number, a string, a slice, a function or a recovered panic, panics with that, and panic with another number of arguments with an error that says so; recover(), evaluated in a function made in a call that is ending by a panic, gives a value that stands for the panic (the bool, number, slice or function it was made with by panic, if so) and makes the call end normally, with the value nil; anywhere else it gives nil, except that a function made outside of calls gets the panic of the previous program if that one failed; functions may call themselves and each other to any depth, and a function kept in a variable still shares the variables of the call it was made in, also in a later evaluation. A host that sets and reads variables and has such programs run, one after another and also after failures, sees exactly that; a panic made with a bool, number, slice or function that no function recovers comes to the host as a panic, any other as an error, and both leave the engine usable.", "quantifier": "all such programs, arguments, nesting and depths of recursion, and sequences of host actions on a new engine; left out: return and defer outside functions, calls of library functions other than panic, of methods and classes, panic of other values, and indices of what is neither a slice, a string nor an int", "why_tests_cant": "Every combination of nested statements, recursion and closures interacts through one stack, cached outer variables and caught panics; finite tests cover a handful.", "anchors": ["tpl/qlang/cl/function.go: Function.Call, Interpreter.Function, Return, Defer, Recover, ExecDefers, MultiAssign, getVar, getVars", "tpl/qlang/cl/ctrl.go: If, Switch, For", "tpl/qlang/cl/qlang.go: VCall, VSlice, Index, Var, SetVar", "tpl/qlang/lib/builtin/builtin.go: SliceFrom, Get", "tpl/interpreter/interpreter.go: EvalCode", "tpl/qlang/engine.go: Exec, SafeEval"]}
{"id": "C95", "title": "SafeParse of an extractor gives Parse's panics as errors", "statement": "SafeParse gives the document or the error that Parse gives, and leaves the engine as Parse does. If Parse panics, SafeParse returns that panic as an error, unless its value is neither a string nor an error; then it panics with the same value. Such a value can only come from the host's own GetValue, called with the type of a mark and a literal, so with a GetValue that panics only with strings and errors, as the package's own does, SafeParse never panics.", "quantifier": "all grammars, texts, engine states, and functions GetValue of the host", "why_tests_cant": "All grammars and texts, and every point at which matching may panic.", "anchors": ["tpl/extractor/extractor.go: SafeParse, Parse, GetValue", "tpl/match.go: MatchExactly", "tpl/grammar.go: grAnd.Match"]}
