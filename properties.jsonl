{"id": "C01", "title": "Type inference is sound", "statement": "If inferring the type of a term in a global and a local context returns a type, then the judgement 'context |- term : type' is derivable in the lambda-Pi calculus modulo the rewrite rules of that global context (plus eta exactly when the eta option is on).", "quantifier": "all global contexts, local contexts, terms, and all executions of the evaluator (any sharing/reference-count behaviour)", "why_tests_cant": "The space of terms, contexts and rewrite systems is infinite; a test only shows single accepted or rejected terms.", "anchors": ["kontroli/src/kernel/infer_check.rs: STerm::infer, SComb::infer, LCtx", "kontroli/src/kernel/mod.rs"]}
{"id": "C02", "title": "Type checking is sound", "statement": "If Check::check(gc) returns Ok(()), then the checked term has the checked type, in the checked local context, in the lambda-Pi calculus modulo.", "quantifier": "all checks (local context, term, type) and global contexts", "why_tests_cant": "Acceptance of an ill-typed proof could hide in any of infinitely many terms.", "anchors": ["kontroli/src/kernel/mod.rs: Check::check", "kontroli/src/kernel/infer_check.rs: STerm::check"]}
{"id": "C03", "title": "Evaluation to weak head normal form preserves the meaning of a term", "statement": "If whnf of a term returns a term, then both are related by the congruence generated by beta and the rewrite rules of the context (and eta only if enabled for non-linear matching).", "quantifier": "all terms and global contexts, including non-terminating, non-confluent and non-linear rule sets", "why_tests_cant": "The abstract machine is lazy and updates shared states in place; only a proof covers all sharing patterns.", "anchors": ["kontroli/src/kernel/reduce.rs: STerm::whnf, State::whnf, RState::whnf, psubst, match_flatten"]}
{"id": "C04", "title": "Convertibility answers 'yes' only for convertible terms", "statement": "If convertible(t, u) returns true, t and u are related by the congruence generated by beta, the rewrite rules, irrelevance of abstraction annotations, and eta iff the global context has eta enabled.", "quantifier": "all pairs of terms and global contexts", "why_tests_cant": "Infinitely many pairs and rule sets.", "anchors": ["kontroli/src/kernel/reduce.rs: STerm::convertible, all_convertible", "kontroli/src/kernel/convertible.rs: step, step2, step1, shift_app"]}
{"id": "C05", "title": "Convertibility does not depend on the order of its arguments", "statement": "Whenever convertible(t,u) and convertible(u,t) both return, they return the same boolean.", "quantifier": "all pairs of terms, contexts, and both settings of eta", "why_tests_cant": "Asymmetric code in the eta cases and the order of the constraint stack could make some pair order-sensitive.", "anchors": ["kontroli/src/kernel/convertible.rs: step, step1, step2", "kontroli/src/kernel/reduce.rs: convertible"]}
{"id": "C06", "title": "Results do not depend on sharing of memory", "statement": "The verdict of convertible, the outcome of check, and the inferred type and whnf up to the nesting of applications, are the same whatever Rc::get_mut / Rc::try_unwrap answer and whether subterms are stored as long (borrowed) or short (reference-counted) terms.", "quantifier": "all inputs and all behaviours of the reference counts", "why_tests_cant": "Reference counts are not observable in tests; in-place mutation depends on the whole history of clones.", "anchors": ["kontroli/src/kernel/sterm.rs: STerm, apply, get_comb", "kontroli/src/kernel/subst.rs: apply_subst", "kontroli/src/kernel/convertible.rs"]}
{"id": "C07", "title": "The kernel never panics", "statement": "No call of intro, rewrite, check, infer, whnf or convertible hits a panic: no RefCell double borrow, no re-entrant thunk, no failed unwrap/assert/unreachable, no subtraction below zero.", "quantifier": "all terms (closed or not, well-typed or not), all global contexts, all reference-count behaviours", "why_tests_cant": "Absence of re-entrant borrows is a global acyclicity invariant of a mutable heap, over all evaluation histories.", "anchors": ["kontroli/src/kernel/reduce.rs: RState::whnf, borrow_state, State::whnf, psubst", "kontroli/src/kernel/reduce.rs: psubst_single"]}
{"id": "C08", "title": "Kernel results are deterministic", "statement": "If two evaluations of the same kernel query both return (for any amount of work allowed), they return the same result.", "quantifier": "all queries", "why_tests_cant": "Needs a statement about every pair of runs.", "anchors": ["kontroli/src/kernel/reduce.rs", "kontroli/src/kernel/infer_check.rs"]}
{"id": "C09", "title": "Substitution and shifting are capture-avoiding", "statement": "Term::subst(u) and Term::shift(n) compute the textbook de Bruijn substitution and lifting, irrespective of representation; the returned change flag is false only if the term is unchanged.", "quantifier": "all terms, all de Bruijn indices and depths", "why_tests_cant": "Index arithmetic at arbitrary binder depth.", "anchors": ["kontroli/src/kernel/subst.rs: apply_subst, subst, psubst_single, shift, shift_mut"]}
{"id": "C10", "title": "whnf returns weak head normal forms", "statement": "The term returned by whnf has no head redex: it is a sort, a product or an abstraction without arguments, or a variable or constant applied to arguments where no left-linear rewrite rule of that constant literally applies.", "quantifier": "all terms and global contexts for which whnf returns", "why_tests_cant": "Requires reasoning about every failed rule match and later mutations of the matched arguments.", "anchors": ["kontroli/src/kernel/reduce.rs: State::whnf, match_rule, match_pat", "kontroli/src/comb.rs: is_whnf"]}
{"id": "C11", "title": "A rewrite rule fires only on instances of its left-hand side", "statement": "When evaluation applies a rule, the arguments match the rule's patterns up to convertibility, every variable of the rule context is bound by the match, and all terms matched against one variable are convertible. A rule with a context variable that is absent from its left-hand side never fires.", "quantifier": "all rules, argument stacks, global contexts", "why_tests_cant": "Non-linear matching calls the convertibility checker on lazily evaluated arguments.", "anchors": ["kontroli/src/kernel/reduce.rs: match_flatten, match_rule, match_pat, all_convertible"]}
{"id": "C12", "title": "Eta is used only on request", "statement": "With eta disabled, every positive convertibility answer is justified without eta; with eta enabled, `x => t` and `u` are convertible if the body is convertible with `u x`.", "quantifier": "all term pairs", "why_tests_cant": "A leak of eta could show on one particular pair only.", "anchors": ["kontroli/src/kernel/convertible.rs: step, step2", "kocheck/src/opt.rs: eta", "kontroli/src/gctx.rs: eta"]}
{"id": "C13", "title": "Accepted introductions have a proper type", "statement": "intro verifies that the type of the introduced symbol is of a proper sort (Type or Kind), or infers it from the given term.", "quantifier": "all introduction commands and global contexts", "why_tests_cant": "All shapes of commands with arbitrary terms; documentation claims it for all of them.", "anchors": ["kontroli/src/kernel/mod.rs: intro, declare, define, theorem"]}
{"id": "C14", "title": "Accepted annotated rewrite rules preserve types", "statement": "If rewrite(rule) returns a check and that check returns Ok, then left- and right-hand side of the rule have a common type in the rule's context.", "quantifier": "all rewrite rules and global contexts", "why_tests_cant": "Arbitrary rules.", "anchors": ["kontroli/src/kernel/mod.rs: rewrite, Check::check", "kontroli/src/rule.rs: TryFrom", "kontroli/src/lterm.rs: TryFrom<Pattern>"]}
{"id": "C15", "title": "Theorems and plain declarations never compute", "statement": "After any history of insert and add_rule calls, a symbol introduced by a theorem or a non-injective declaration has no rewrite rules, adding one is rejected, and so its proof is never unfolded.", "quantifier": "all histories of operations on a global context", "why_tests_cant": "History property.", "anchors": ["kontroli/src/gctx.rs: insert, add_rule, get_rules", "dedukti-parse/src/cmd.rs: Intro::rewritable"]}
{"id": "C16", "title": "A symbol gets at most one type", "statement": "insert of an already introduced symbol returns an error; as long as no insert failed, the type of a symbol never changes and the rules of a symbol are exactly its definition followed by the rules added, in order.", "quantifier": "all histories of operations on a global context", "why_tests_cant": "History property.", "anchors": ["kontroli/src/gctx.rs: intro_type, intro_rules, insert, add_rule, get_type, get_rules"]}
{"id": "C17", "title": "Introducing a fresh symbol changes no earlier answer", "statement": "Adding a symbol that occurs nowhere in the global context nor in the query does not change the outcome of infer, check, whnf or convertible.", "quantifier": "all global contexts, queries and fresh symbols", "why_tests_cant": "Parallel checking relies on it for all programs.", "anchors": ["kontroli/src/gctx.rs: insert", "kocheck/src/infer_checks.rs: infer"]}
{"id": "C18", "title": "A successful run verifies everything", "statement": "If processing a stream of commands returns Ok without omitting a stage, then every definition and theorem of the stream has the stated type, every declared type has a sort, and every fully annotated joker-free rule is type-preserving, each with respect to the context built from the commands before it.", "quantifier": "all command streams", "why_tests_cant": "End-to-end statement over all programs.", "anchors": ["kocheck/src/infer_checks.rs: infer_checks, infer_with, infer_check", "kocheck/src/process.rs: run, consume"]}
{"id": "C19", "title": "Concurrent checking gives the same verdict as sequential checking", "statement": "With --jobs, for every interleaving of producing and checking commands, the verdict is Ok iff the sequential run is Ok, and a reported error is an error of some command.", "quantifier": "all command streams and all schedules", "why_tests_cant": "Schedules cannot be enumerated by tests.", "anchors": ["kocheck/src/infer_checks.rs: infer_checks, infer, check"]}
{"id": "C20", "title": "Omitting stages only accepts more", "statement": "If a run without --omit succeeds, so does a run that omits a stage; omitting a stage omits all later stages.", "quantifier": "all command streams and stages", "why_tests_cant": "All programs.", "anchors": ["kocheck/src/stage.rs", "kocheck/src/opt.rs: omits", "kocheck/src/infer_checks.rs", "kocheck/src/process.rs"]}
{"id": "C21", "title": "Streaming and direct processing agree", "statement": "Processing files directly (run) succeeds iff producing events from the files succeeds and consuming them succeeds. With a channel, the possible results are: the error of the first file name that is no module path, or if there is none, the result of consuming all events; or an error that consuming some of the events before that gives. So without --jobs, and if all file names are module paths, the results with and without channel are the same, errors included.", "quantifier": "all file lists and file contents, all options", "why_tests_cant": "The documentation claims functional equivalence for all inputs.", "anchors": ["kocheck/src/process.rs: run, produce, consume", "kocheck/src/event.rs: Event::handle", "kocheck/src/main.rs"]}
{"id": "C22", "title": "Processing stops at the first error", "statement": "In sequential processing an error is reported exactly if some command fails; it is the error of the first failing command, and commands after it are never evaluated.", "quantifier": "all command streams", "why_tests_cant": "History property.", "anchors": ["kocheck/src/infer_checks.rs: infer_checks", "kocheck/src/process.rs"]}
{"id": "C23", "title": "Names are introduced once per module", "statement": "insert returns an error iff the current module already contains the name; two accepted introductions never yield equal symbols.", "quantifier": "all histories of set_path and insert", "why_tests_cant": "History property over module paths.", "anchors": ["kontroli/src/symbols.rs: insert, set_path", "kontroli/src/symbol.rs: PartialEq", "kocheck/src/process.rs: share"]}
{"id": "C24", "title": "Name resolution searches enclosing modules from the inside out", "statement": "get(path, name) returns the symbol of the innermost enclosing module (current module first, root last) whose submodule at path contains name, as most recently inserted there.", "quantifier": "all histories of set_path and insert, all queries", "why_tests_cant": "History property.", "anchors": ["kontroli/src/symbols.rs: get, set_path"]}
{"id": "C25", "title": "Sharing resolves exactly the declared names", "statement": "Sharing a term succeeds iff all its constants resolve in the symbol table, keeps its structure, and otherwise reports a constant of the term that does not resolve; the symbol being introduced is not in scope in its own definition.", "quantifier": "all terms and symbol tables", "why_tests_cant": "Arbitrary terms.", "anchors": ["kontroli/src/share.rs: Share for Symb, AppH, PTerm, Command", "kocheck/src/process.rs: share"]}
{"id": "C26", "title": "Parameters are products and abstractions", "statement": "Introducing `c (x1:A1) .. (xn:An) : B := t` is shared to the same command as `c : x1:A1 -> .. -> xn:An -> B := x1:A1 => .. => xn:An => t`.", "quantifier": "all parameter lists, types, terms", "why_tests_cant": "Arbitrary nesting.", "anchors": ["kontroli/src/share.rs: Share for parse::Command", "dedukti-parse/src/cmd.rs: map_type, map_term"]}
{"id": "C27", "title": "Rule left-hand sides become the patterns they denote", "statement": "Sharing a rule succeeds only for left-hand sides built from constants, rule variables, jokers and applications headed by a constant; the pattern denotes the same term, jokers replace exactly the joker index, and every pattern variable is a rule context variable when the left-hand side is well-scoped.", "quantifier": "all rules", "why_tests_cant": "Arbitrary nesting of applications.", "anchors": ["kontroli/src/share.rs: TryFrom<&LTerm> for Pattern, Share for parse::Rule", "kontroli/src/pattern.rs: joke, TopPattern::try_from"]}
{"id": "C28", "title": "The parser never panics", "statement": "Neither the strict nor the lazy parser panics, for any input text, even if parsing is continued after errors.", "quantifier": "all input texts, all continuation points", "why_tests_cant": "unreachable!/assert!/panic! branches over all token sequences.", "anchors": ["dedukti-parse/src/lib.rs: State::feed", "dedukti-parse/src/cmd.rs: parse, apply, close", "dedukti-parse/src/term.rs"]}
{"id": "C29", "title": "Strict parsing consumes its input", "statement": "Every call of the strict iterator consumes at least one token or ends the iteration, so that iteration ends after finitely many results.", "quantifier": "all input texts", "why_tests_cant": "Termination.", "anchors": ["dedukti-parse/src/lib.rs: Iterator for Strict"]}
{"id": "C30", "title": "Lazy parsing ends", "statement": "The lazy iterator returns None after finitely many results.", "quantifier": "all finite line sequences", "why_tests_cant": "Termination for all inputs.", "anchors": ["dedukti-parse/src/lib.rs: Iterator for Lazy"]}
{"id": "C31", "title": "Scoping computes de Bruijn indices", "statement": "Parsing with scoping equals parsing without scoping followed by replacing each path-free name by the index of its innermost binder (binders of the term, then command parameters / rule variables), `Type` by the sort when unbound, and anything else by a constant; in left-hand sides an unbound `_` is the joker index.", "quantifier": "all input token sequences", "why_tests_cant": "Arbitrary nesting of binders, including shadowing.", "anchors": ["dedukti-parse/src/term.rs: Ctx::find, Scope for Atom, reduce", "dedukti-parse/src/cmd.rs: rulel, apply"]}
{"id": "C32", "title": "The parser implements the grammar", "statement": "A token sequence parses to a command iff the grammar derives it, and the resulting command is the one the grammar assigns; parsed terms have the usual precedences (application binds tighter than arrows, arrows associate to the right).", "quantifier": "all token sequences", "why_tests_cant": "Infinite language.", "anchors": ["dedukti-parse/src/term.rs: State::parse, init, symb, varof, aterm, reduce", "dedukti-parse/src/cmd.rs", "dedukti-parse/src/lib.rs: feed"]}
{"id": "C33", "title": "Printing then parsing is the identity", "statement": "Displaying a parsed (unscoped) command followed by a dot and parsing it again yields the same command.", "quantifier": "all commands with valid names", "why_tests_cant": "Arbitrary terms.", "anchors": ["dedukti-parse/src/term.rs: Display", "dedukti-parse/src/cmd.rs: Display", "dedukti-parse/src/symb.rs: Display", "dedukti-parse/src/lex.rs"]}
{"id": "C34", "title": "Lazy and strict parsing agree", "statement": "Parsing a text line by line yields the same commands as parsing the whole text.", "quantifier": "all texts, all ways of distributing them over lines", "why_tests_cant": "Arbitrary line breaks inside commands and comments.", "anchors": ["dedukti-parse/src/lib.rs: Iterator for Strict, Iterator for Lazy", "dedukti-parse/src/lex.rs: comment"]}
{"id": "C35", "title": "Interrupting the parser is invisible", "statement": "Feeding a token sequence to the command/term parser in any number of chunks gives the same final state as feeding it at once.", "quantifier": "all token sequences and all ways of splitting them", "why_tests_cant": "All splits.", "anchors": ["dedukti-parse/src/lib.rs: feed", "dedukti-parse/src/term.rs: resume"]}
{"id": "C36", "title": "Comments nest and are invisible", "statement": "A balanced comment yields no token and lexing continues right after it; an unbalanced one yields the number of open comments.", "quantifier": "all texts", "why_tests_cant": "Arbitrary nesting.", "anchors": ["dedukti-parse/src/lex.rs: comment, comment1"]}
{"id": "C37", "title": "Token formatting preserves the token stream", "statement": "Printing the tokens of an error-free text as kofmt does and lexing the output again yields the same tokens; hence formatting is idempotent.", "quantifier": "all token sequences produced by the lexer", "why_tests_cant": "Adjacent tokens could merge in some combination.", "anchors": ["kofmt/src/main.rs: print_token, print_tokens", "dedukti-parse/src/lex.rs"]}
{"id": "C38", "title": "kofmt --parse output can be parsed again", "statement": "The output of kofmt --parse on a file parses to the same commands.", "quantifier": "all files", "why_tests_cant": "All files.", "anchors": ["kofmt/src/main.rs: print_cmds", "dedukti-parse/src/cmd.rs: Display"]}
{"id": "C39", "title": "Dependencies are ordered before dependents", "statement": "For an acyclic makefile, the dependency list computed for a module contains the module and all its transitive dependencies exactly once, each after all of its own dependencies.", "quantifier": "all acyclic makefiles", "why_tests_cant": "All graphs.", "anchors": ["koweb/src/parse_make.rs: create_graph, get_all_children, get_full_dependency_path_inorder, remove_dup"]}
{"id": "C40", "title": "Dependency computation ends", "statement": "Computing the dependency list of a module ends.", "quantifier": "all makefiles", "why_tests_cant": "Termination.", "anchors": ["koweb/src/parse_make.rs: get_all_children"]}
{"id": "C41", "title": "File paths map to module paths", "statement": "A relative file path a/b/c.ext without . and .. components maps to the module path [a,b,c]; absolute paths and paths with . (leading) or .. components are rejected.", "quantifier": "all file paths", "why_tests_cant": "All paths.", "anchors": ["kocheck/src/path_read.rs: module_path, is_dash"]}
{"id": "C42", "title": "A failed introduction leaves the tables unchanged", "statement": "If inserting a name or symbol returns an error, the table is as before.", "quantifier": "all histories", "why_tests_cant": "History property.", "anchors": ["kontroli/src/symbols.rs: insert", "kontroli/src/gctx.rs: insert"]}
{"id": "C43", "title": "kocheck accepts only well-typed programs", "statement": "If kocheck (nothing omitted; any number of threads, with or without channel) succeeds on some files, then each file, read line by line, is a sequence of commands of the grammar; resolving names, parameters and patterns gives a sequence of declarations, definitions, theorems and rules; and each of these is well-typed in the signature made of the preceding ones.", "quantifier": "all file names and contents, all schedules, all fuel and sharing behaviours", "why_tests_cant": "End-to-end soundness over all texts and all schedules.", "anchors": ["kocheck/src/main.rs: main", "kocheck/src/process.rs: parse, run, produce, consume"]}
{"id": "C44", "title": "kocheck with omitted stages accepts exactly what elaborates or parses", "statement": "With --omit infer kocheck succeeds iff the files parse and elaborate (all names resolve, no name is introduced twice, left-hand sides are patterns); with --omit share it succeeds iff the files parse.", "quantifier": "all file names and contents, all schedules", "why_tests_cant": "Equivalence over all texts.", "anchors": ["kocheck/src/process.rs", "kocheck/src/stage.rs", "kocheck/src/opt.rs: omits"]}
{"id": "C45", "title": "koweb accepts only well-typed programs", "statement": "If checking a text (or a listed program with its fetched dependencies) in the browser reports no error, then all texts parse, elaborate and are well-typed in the order of the list.", "quantifier": "all texts, program lists, fetched contents", "why_tests_cant": "End-to-end soundness over all texts.", "anchors": ["koweb/src/lib.rs: check_single, check_multiple, produce, consume, get_omit"]}
{"id": "C46", "title": "koweb and kocheck agree", "statement": "On the same modules (LF line ends, no names over several lines, no unrecognised characters), koweb accepts only what kocheck accepts, and kocheck accepts only what koweb accepts if the texts do not end with pragmas.", "quantifier": "all module lists and texts, all options, all kernels", "why_tests_cant": "Agreement of two front ends over all texts.", "anchors": ["koweb/src/lib.rs: produce, consume", "kocheck/src/process.rs: run, produce, consume"]}
{"id": "C47", "title": "Negative answers of convertibility are right", "statement": "If reduction has the Church-Rosser property (in particular, if the rewrite rules are orthogonal) and eta is off, or the rules are orthogonal and without arguments (definitions), and convertible answers false, then the terms are not convertible (with eta iff it is on); so positive answers are transitive. Without Church-Rosser, or with eta and rules with arguments, this is false.", "quantifier": "all contexts, terms, fuel and sharing oracles", "why_tests_cant": "Non-convertibility quantifies over all chains of reductions and expansions.", "anchors": ["kontroli/src/kernel/convertible.rs: convertible, step", "kontroli/src/kernel/reduce.rs: whnf, matches, all_convertible"]}
{"id": "C48", "title": "Evaluation reaches the head of a term", "statement": "With the Church-Rosser property and with eta off or only definitions as rules, the head of an evaluated term never changes whatever is reduced inside it (also with non-linear rules). With eta off, a term that is convertible with a product or a sort evaluates to a product or that sort.", "quantifier": "all contexts, terms, fuel and sharing oracles", "why_tests_cant": "Quantifies over all reduction sequences of the result.", "anchors": ["kontroli/src/kernel/reduce.rs: State::whnf, RState::whnf, Matches"]}
{"id": "C49", "title": "Typable terms are rejected only for want of a sort", "statement": "With eta off and the Church-Rosser property: if a term has an inferable type (is checkable against a type) according to a two-mode typing judgement, then inference returns a convertible type (checking succeeds), or stops with one of the three errors that compare an inferred type with a sort literally (BindNoType, SortExpected, UnexpectedKind). These exceptions do occur.", "quantifier": "all contexts, terms, types, fuel and sharing oracles", "why_tests_cant": "Completeness quantifies over all typing derivations.", "anchors": ["kontroli/src/kernel/infer_check.rs: infer, check, bind_of_type"]}
{"id": "C50", "title": "The lexer returns the tokens of the text", "statement": "The tokens of every text are those of the token patterns under the longest-match rule: at each position the longest match of any pattern is taken, a keyword takes precedence over an identifier of the same length, a symbol extends over dotted components only without spaces, white space and closed comments are skipped, and an error token stands exactly for an unclosed name or for text at which no pattern matches. A text that has tokens without errors has no other tokens.", "quantifier": "all texts, all behaviours of the lexer on unrecognised characters", "why_tests_cant": "Maximality quantifies over all beginnings of all texts.", "anchors": ["dedukti-parse/src/lex.rs: Token, symb, moustache, comment"]}
{"id": "C51", "title": "Evaluation preserves types", "statement": "If the types of symbols are closed, products are convertible only by parts, and both sides of every rule have a common type, then whatever type a term has, its weak head normal form has as well. These conditions hold after every successful run over a program whose rules are annotated and free of jokers (products: for orthogonal rules without eta). Without the condition on jokers this fails: a program with a rule f _ --> true for f : Nat -> Nat is accepted.", "quantifier": "all contexts, programs, terms, types, fuel and sharing oracles", "why_tests_cant": "It quantifies over all typing derivations of all terms and over all accepted programs.", "anchors": ["kontroli/src/kernel/reduce.rs: State::whnf", "kontroli/src/kernel/mod.rs: rewrite, intro", "kontroli/src/kernel/infer_check.rs: infer, check"]}
{"id": "C52", "title": "Inferred types are types", "statement": "Under the conditions of C51, if moreover the types of symbols and of the variables of the local context are types (have type Type or Kind), then every inferred type is Kind or has Type or Kind as its type, in the same context.", "quantifier": "all contexts, terms, fuel and sharing oracles", "why_tests_cant": "The inferred type arises by evaluation and substitution for arbitrary terms.", "anchors": ["kontroli/src/kernel/infer_check.rs: infer"]}
{"id": "C53", "title": "Inferred types are unique", "statement": "If products are convertible only by parts, then the inferred type of a term is convertible with every type of the term. Under the conditions of C51, the types inferred before and after evaluating the term are convertible, for any fuel and sharing.", "quantifier": "all contexts, programs, terms, types, fuel and sharing oracles", "why_tests_cant": "It quantifies over all typing derivations.", "anchors": ["kontroli/src/kernel/infer_check.rs: infer", "kontroli/src/kernel/reduce.rs: State::whnf"]}
{"id": "C54", "title": "Evaluation of strongly normalising terms terminates", "statement": "If all rules are left-linear and a term has no infinite sequence of reduction steps (in which domains of abstractions are left aside), then evaluation of the term returns a term, with any sharing and with or without eta. The result is reached from the term by reduction steps. Without the condition, evaluation need not terminate.", "quantifier": "all contexts with left-linear rules, all strongly normalising terms, sharing oracles", "why_tests_cant": "Termination of a lazy machine with shared mutable cells concerns all terms; a test can only exhibit terms for which it returns.", "anchors": ["kontroli/src/kernel/reduce.rs: State::whnf, RState::whnf", "kontroli/src/kernel/reduce.rs: STerm::whnf", "kontroli/src/kernel/reduce.rs: psubst"]}
{"id": "C55", "title": "Comparison of strongly normalising terms terminates and decides convertibility", "statement": "If all rules are left-linear, and eta is off or the rules are only definitions, and two terms are strongly normalising, then comparing them returns an answer; for orthogonal rules the answer is true exactly if the terms are convertible (with eta iff it is on). With eta and rules with arguments, comparison of strongly normalising terms need not terminate.", "quantifier": "all contexts, pairs of strongly normalising terms, sharing oracles", "why_tests_cant": "A test cannot show that a comparison always returns, nor that its answer agrees with an undecidable relation in all decidable cases.", "anchors": ["kontroli/src/kernel/convertible.rs: STerm::convertible, step"]}
{"id": "C56", "title": "Inference, checking and commands terminate in normalising contexts", "statement": "In a global context in which eta is off or the rules are only definitions, rules are left-linear, products are convertible only by parts, the types of symbols and the rules are well-typed, and well-typed terms are strongly normalising, inferring the type of any term (well-typed or not) in a well-formed local context returns an answer; so does checking any term against a well-typed type, and so does every command whose rule variables have types. With eta off and the Church-Rosser property, checking thereby decides the two-mode judgement of C49 up to the errors about sorts. Well-typedness of symbols and rules alone is not enough: there is a context and a definition whose type is never found.", "quantifier": "all such contexts, all terms, types, commands and sharing oracles", "why_tests_cant": "It says that no term, however ill-typed, makes the kernel run forever; a test shows this for single terms only.", "anchors": ["kontroli/src/kernel/infer_check.rs: infer, check", "kontroli/src/kernel/mod.rs: Intro::intro, Rule::check, Check::check", "kocheck/src/infer_checks.rs: infer_check"]}
{"id": "C57", "title": "Well-behaved programs are processed in finite time and give well-typed contexts", "statement": "Take a program such that, at each of its commands whose predecessors are accepted by kocheck (with no stage omitted; with eta only if the rules are definitions), the context so far is left-linear, Church-Rosser and strongly normalising on well-typed terms, and the rules of the command, if any, are checked rules whose variables are annotated by types. Then sequential processing of the program returns, with success or with an error, even if commands are ill-typed. If it is accepted, then in its final context the type of every symbol is a proper type (it has sort Type or Kind) and all rules preserve types. Concurrent processing need not return: it may evaluate a command that follows one whose check will fail.", "quantifier": "all such programs of any length, all sharing oracles", "why_tests_cant": "Termination and well-typedness of the context for all programs follow from an invariant over all prefixes; running examples only shows that those stop.", "anchors": ["kocheck/src/infer_checks.rs: infer_checks, infer_check, infer", "kontroli/src/kernel/mod.rs: Intro::intro, Rule::check, Check::check", "kontroli/src/kernel/infer_check.rs: infer, check"]}
{"id": "C58", "title": "Inference and checking decide typability", "statement": "In a context as in C56 that also has the Church-Rosser property, the kernel decides typability in the sense of the textbook rules of the lambda-Pi-calculus modulo rewriting, with conversion possible to types and kinds only. Inference for a term returns a type if and only if the term has a type and its abstractions without domain occur only in arguments; the type returned is then a type of the term, and all others are convertible to it. Otherwise it returns an error. Checking a term against a well-typed type succeeds if and only if the term has that type (and abstractions without domain occur only where a type is known), and returns an error otherwise. A command is accepted if and only if its terms are typable in this sense and its symbols are admissible (new, or rewritable); a typing error is returned exactly if the terms are not typable. A program as in C57 is accepted if and only if each of its commands, in the context given by its predecessors, has resolvable names and is typable and admissible.", "quantifier": "all such contexts, local contexts, terms, types, commands and programs, all sharing oracles", "why_tests_cant": "Rejection of a term that has a type is only visible to someone who has a derivation; completeness is a statement about all derivations, of which tests contain a few.", "anchors": ["kontroli/src/kernel/infer_check.rs: infer, check", "kontroli/src/kernel/mod.rs: Intro::intro, Rule::check, Check::check", "kocheck/src/infer_checks.rs: infer_check, infer_checks", "kontroli/src/gctx.rs: insert, add_rule"]}
{"id": "C59", "title": "The library loop over commands trusts rules and otherwise agrees with kocheck", "statement": "The loop over commands that the documentation and the benchmarks of the library use (parse, share, introduce symbols, add rules without typechecking them) accepts only commands whose introduced names have types in the context at that point. It accepts what kocheck accepts and gives the same state; conversely kocheck accepts what it accepts if and only if also every rule passes the rule check at its point. Without rules, both return the same result, including the error. The program in the documentation of the library is accepted. The loop does accept ill-typed rules, which kocheck rejects.", "quantifier": "all lists of commands and texts, all kernels for the comparison, all sharing oracles and fuel for soundness", "why_tests_cant": "The doc test runs one well-typed program; that the omission of the rule check is the only difference is a statement about all programs.", "anchors": ["kontroli/src/lib.rs: crate documentation", "kontroli/benches/bench.rs: check", "kontroli/src/kernel/mod.rs: Intro::check, Rule::check", "kocheck/src/infer_checks.rs: infer_checks"]}
{"id": "C60", "title": "The lexer cuts strings at boundaries of characters only", "statement": "On every well-formed UTF-8 text, the callbacks of the lexer (symb, moustache, comment), which search for characters and cut strings at byte offsets, never take a slice or move the lexer to an offset inside a character (which would panic) and need no more iterations than there are bytes; every symbol they return consists of well-formed strings, and so does what is printed for a token. The tokens are the same as those of the byte-wise lexer of C50, in particular jumping to the next parenthesis or semicolon in a comment skips no end of a comment.", "quantifier": "all well-formed UTF-8 texts, all numbers of open comments, all ways of skipping whole characters after an error", "why_tests_cant": "The tests of the lexer contain ASCII characters only; a panic would need a multi-byte character at the right distance from a cut.", "anchors": ["dedukti-parse/src/lex.rs: symb, moustache, comment1, comment, Display for Token", "dedukti-parse/src/symb.rs: Display"]}
{"id": "C61", "title": "Programs without rewrite rules are decided, unconditionally", "statement": "Every program without rewrite rules - declarations, definitions and theorems only - is processed in finite time when processed sequentially, for all its commands whether typable or not, and accepted iff all of its commands are typable and admissible one after the other. There is no assumption on reduction: the signatures built from accepted commands are Church-Rosser (for reduction with eta steps, if eta is on), and well-typed terms over them, with definitions being unfolded and with dependent types and definitions of types, are strongly normalising.", "quantifier": "all programs without rewrite rules, with and without eta, all signatures of declarations and definitions, all answers to queries about sharing, both values of the jobs flag", "why_tests_cant": "Termination for all programs needs strong normalisation of the lambda-Pi-calculus with definitions; tests only show it for the programs tried.", "anchors": ["kocheck/src/process.rs: infer_checks, infer_check", "kontroli/src/gctx.rs: insert", "kontroli/src/kernel/{infer_check,convertible,reduce,subst}.rs"]}
{"id": "C62", "title": "kocheck and koweb decide programs without rewrite rules, from their texts", "statement": "Let the texts of the files consist of commands, none of which is a command for rewrite rules. Then kocheck, run sequentially, has in finite time exactly one result, which is never a panic; the result is success iff every name denotes a symbol declared before it, and every command is typable by the declarative typing rules in the signature of the commands before it, where conversion includes eta iff --eta is given. The same holds for koweb. With threads or a channel, kocheck accepts exactly the same programs. What counts as a typable command is stated over the specification only: for a definition without a type, any type that the term has may be given to the new symbol.", "quantifier": "all texts of files that are grammatical and contain no rules, all results of skipping junk characters, all answers to queries about sharing, both values of the eta and jobs flags, with and without channel", "why_tests_cant": "The statement is an equivalence between the result for all programs and a declarative notion of typability; it needs parsing, name resolution, inference, conversion and termination to be right at once.", "anchors": ["kocheck/src/main.rs: main", "kocheck/src/process.rs: run, produce, consume, infer_checks", "koweb/src/lib.rs: produce, consume", "dedukti-parse/src/{lex,term,cmd,lib}.rs", "kontroli/src/share.rs", "kontroli/src/kernel/{infer_check,convertible,reduce}.rs", "kontroli/src/gctx.rs"]}
{"id": "C63", "title": "symcount counts and inline inlines, but together they do not preserve typing", "statement": "For a file where all names are declared, symcount gives for each constant introduced there the number of its unqualified occurrences in declarations, definitions and theorems. The output of inline is always a file that parses; when each listed definition is used at most once after it (apart from rules), its commands are those of the input with the listed definitions removed and put in place of their names. Both programs together (the pipeline of the README) remove exactly the definitions used once when no bound variable has the name of a constant. Refuted: that a count of 0 means that the constant is never used (it may be used in rules, or with the name of its module), that the pipeline turns accepted programs into accepted ones (the definition may be used in a rule, its type may be needed, a bound variable may have its name), and that it turns rejected programs into rejected ones.", "quantifier": "all texts of files, all lists of names to inline, all results of skipping junk characters", "why_tests_cant": "Definitions are forgotten after their first use, so correctness depends on the global number of uses in all texts; the refuted claims of the README only fail on particular combinations.", "anchors": ["dedukti-parse/examples/symcount.rs", "dedukti-parse/examples/inline.rs", "dedukti-parse/examples/README.md"]}
{"id": "C64", "title": "Programs with structurally recursive functions are decided", "statement": "Let every rule of a program be left-linear and overlap with others only if that does not matter (see C71), let the arguments on its left-hand side consist of variables, jokers and symbols without rules that take arguments of base types, let its right-hand side use previous symbols and, for terms that are parts of one fixed argument, its own symbol, and let the function have a base type as target. Let the types in the context of a rule be types, or, if the kernel does not check the rule, let its sides have a common type. Then well-typed terms are strongly normalising and conversion is Church-Rosser in every context that arises, so that processing the program returns in finite time, and with success iff every command can be processed (its names are declared and it is typable by the declarative rules). Dropping the condition on recursive calls, or the condition on the types of symbols in patterns, makes the statement false, and the kernel accepts the rules in question.", "quantifier": "all signatures, all programs (including ill-typed ones), all answers to queries about sharing, both values of the jobs flag", "why_tests_cant": "Termination of all reductions of all well-typed terms over all such programs; the statement about results is an equivalence with a declarative notion.", "anchors": ["kontroli/src/kernel/{infer_check,convertible,reduce,subst}.rs", "kontroli/src/rule.rs", "kocheck/src/process.rs: infer_checks"]}
{"id": "C65", "title": "kocheck and koweb decide the texts of programs with structurally recursive functions", "statement": "Let the texts of some files parse to sources in which every command finds structurally recursive rules (in the sense of C64) whenever all commands before it are typable, and whose own rules have arguments and variables annotated by types, or, if annotations are missing or there are jokers, sides with a common type. Then kocheck on these files returns in finite time and without panic; it succeeds iff the names in the sources resolve and every command is typable by the declarative rules, where a rule is typable iff both sides have a common type in its context. This holds for every answer to queries about sharing; with threads or a channel, kocheck succeeds for exactly the same programs, and koweb agrees.", "quantifier": "all texts satisfying the condition, all answers to queries about sharing, both values of the jobs flag, with and without channel", "why_tests_cant": "An equivalence between the result of the program on all such texts and a declarative notion; termination for all of them.", "anchors": ["kocheck/src/main.rs: main", "kocheck/src/process.rs: run, produce, consume, infer_checks", "koweb/src/lib.rs: produce, consume", "dedukti-parse/src/{lex,term,cmd,lib}.rs", "kontroli/src/share.rs", "kontroli/src/kernel/{infer_check,convertible,reduce,subst}.rs"]}
{"id": "C66", "title": "Substitution reports and copies exactly what changes", "statement": "STerm::apply_subst with cutoff k returns true iff a variable from k on (adjusted below binders) occurs in the term. If none occurs, then it does not call the substitution (so that nothing fails and no thunk is forced), and a cell to which there are other references is left in place, together with all that is below it; no copy is made.", "quantifier": "all terms, cutoffs, substitutions (including failing ones), heaps and all answers of Rc::get_mut", "why_tests_cant": "An equivalence for all terms; setting the flag too often has no influence on results, only on memory, so that tests of results do not notice it.", "anchors": ["kontroli/src/kernel/subst.rs: STerm::apply_subst, SComb::apply_subst"]}
{"id": "C67", "title": "Eta conversion: decided for definitions, and a conservative extension for linear rules", "statement": "With eta on, and declarations and definitions only, convertible decides beta-eta-conversion of well-typed terms; in particular, a function and its expansion are found convertible. For left-linear rules, switching eta on does not change evaluation at all (same result, errors and fuel), and whatever is found convertible, typable or of a given type without eta is so with eta; so every program with left-linear rules that kocheck accepts is also accepted with --eta, and for programs without rules typability is preserved. For rules that are not left-linear this is false: with eta another rule may fire, and a program that is accepted without --eta is rejected with it.", "quantifier": "all contexts, terms, fuel, sharing oracles; all texts of programs, sequential or concurrent, with or without channel", "why_tests_cant": "Conservativity relates all pairs of runs of the two modes; decidability needs confluence and termination of beta-eta-delta reduction for all well-typed terms.", "anchors": ["kontroli/src/kernel/convertible.rs: step, step1, step2, shift_app", "kontroli/src/kernel/reduce.rs: convertible, all_convertible, State::whnf", "kocheck/src/opt.rs: eta", "kontroli/src/gctx.rs: eta"]}
{"id": "C68", "title": "Programs with recursive functions over inductive types, and into types, are decided", "statement": "Let the symbols without rules that occur in patterns take arguments of flat types, or, if they return an inductive type, also functions from flat types into inductive types (strict positivity), and let flat types have symbols with flat arguments only. Let rules be left-linear and overlap only if that does not matter (see C71), with patterns of variables, jokers and completely applied such symbols, and right-hand sides without beta redexes that use previous symbols and call their own symbol only for parts of one fixed argument: variables in it, and for inductive types also values of functions in it. Functions may return types, and be polymorphic. Then well-typed terms are strongly normalising and conversion is Church-Rosser in every context that arises, so that processing a program (each context of which is of this kind or of that of C64) returns in finite time, and with success iff every command can be processed. If functions in patterns take elements of their own type, or if types are computed from themselves, this is false, though the kernel accepts the rules.", "quantifier": "all signatures, all programs (including ill-typed ones), all answers to queries about sharing, both values of the jobs flag", "why_tests_cant": "Termination of all reductions of all well-typed terms over all such programs, in which even types have to be computed; the statement about results is an equivalence with a declarative notion.", "anchors": ["kontroli/src/kernel/{infer_check,convertible,reduce,subst}.rs", "kontroli/src/rule.rs", "kocheck/src/process.rs: infer_checks", "examples/fo_imp.dk"]}
{"id": "C69", "title": "kocheck and koweb decide the texts of programs with recursive functions over inductive types", "statement": "Let the texts of some files parse to sources in which every command finds rules in the sense of C64 or C68 whenever all commands before it are typable, and whose own rules have arguments and variables annotated by types, or, if annotations are missing or there are jokers, sides with a common type. Then kocheck on these files returns in finite time and without panic; it succeeds iff the names in the sources resolve and every command is typable by the declarative rules. This holds for every answer to queries about sharing; with threads or a channel, kocheck succeeds for exactly the same programs, and koweb agrees. The condition can be shown by computation; it holds for examples/fo_imp.dk of the repository and for files of proofs that use it.", "quantifier": "all texts satisfying the condition, all answers to queries about sharing, both values of the jobs flag, with and without channel", "why_tests_cant": "An equivalence between the result of the program on all such texts and a declarative notion; termination for all of them.", "anchors": ["kocheck/src/main.rs: main", "kocheck/src/process.rs: run, produce, consume, infer_checks", "koweb/src/lib.rs: produce, consume", "dedukti-parse/src/{lex,term,cmd,lib}.rs", "kontroli/src/share.rs", "kontroli/src/kernel/{infer_check,convertible,reduce,subst}.rs", "examples/fo_imp.dk"]}
{"id": "C70", "title": "What is printed determines the term", "statement": "If names can be written in a file and no constant is called Type, Kind or _, then two terms (long or short), two patterns and two rules have the same text iff they are the same tree, where constants are compared by name; how a term is stored does not matter, and the types of the variables of a rule are not shown. A local context is shown as the list of all its variables with the types that inference returns for them. The text of an event shows the path of the module, the name of the symbol or the number of rules. Two different symbols of a program may have the same text, because the path of the module is not shown, and symbols called Kind, or Type in another module, have the text of the sort.", "quantifier": "all terms, patterns, rules, local contexts and events; all assignments of names to symbols; all answers to queries about sharing", "why_tests_cant": "Injectivity over all terms; the text of a context depends on shifting, for which all answers of reference counts have to be considered.", "anchors": ["kontroli/src/comb.rs: Display for Comb", "kontroli/src/lterm.rs: Display for LTerm", "kontroli/src/kernel/sterm.rs: Display for STerm", "kontroli/src/pattern.rs: Display for Pattern", "kontroli/src/rule.rs: Display for Rule", "kontroli/src/app.rs: format", "kontroli/src/symbol.rs: Display for Symbol", "kontroli/src/kernel/infer_check.rs: Display for LCtx", "kocheck/src/event.rs: Display for Event"]}
{"id": "C71", "title": "kocheck decides the examples of the repository, with rules that overlap, have jokers, or lack types", "statement": "If all rules are left-linear, and each rule either belongs to a set of rules that have the same result wherever they overlap, or has sides that are convertible by these, then reduction is Church-Rosser without eta, and answers of convertibility are right. The decision theorems C64, C65, C68 and C69 hold for programs with such rules, and with rules that the kernel does not check (types of variables are missing, or there are jokers), if both sides have a common type once jokers are replaced by variables. So kocheck terminates on examples/bool.dk, fo_imp.dk, magic.dk and nat.dk, and on the test programs for fib and or_n, with a result that does not depend on sharing: it accepts them, and they are typable by the declarative rules; with a wrong definition added, they are not typable and it rejects them. If an unchecked rule has no type, an accepted program with rules as in C64 may make reduction diverge.", "quantifier": "all signatures and terms; for the examples, all answers to queries about sharing and all sufficiently large amounts of fuel", "why_tests_cant": "Running the examples shows one result for one run; that no other answer to queries about sharing leads to another result or to divergence, and that a rejected program is not typable, are statements about all runs and all derivations.", "anchors": ["examples/{bool,fo_imp,magic,nat}.dk", "examples/bench/{fib24,or_n,or20}.dk", "kontroli/src/rule.rs: Rule::check", "kontroli/src/kernel/mod.rs: rewrite", "kontroli/src/kernel/{convertible,reduce}.rs", "kocheck/src/process.rs: run"]}
{"id": "C72", "title": "Evaluation keeps the work that has been done", "statement": "Whatever the abstract machine does, the states and terms that have been evaluated stay evaluated and unchanged, those being evaluated stay so until their own evaluation ends, and all others are at most replaced by their evaluated versions; no location is lost. So a shared state is evaluated at most once, and a shared argument is read back to a term at most once: a later request returns the same result immediately, without evaluation. A request for something that is just being evaluated would panic. The stronger claim that the argument of a function is evaluated at most once is false: reading an argument back does not evaluate it, so each occurrence of a variable is evaluated by itself, and there are terms of linear size whose evaluation allocates exponentially many cells.", "quantifier": "all contexts, heaps, states, locations, answers to queries about sharing and amounts of fuel; all heights of the tower of applications for the exponential example", "why_tests_cant": "Whether a cell is evaluated again has no influence on results, only on time; tests that compare results do not see it.", "anchors": ["kontroli/src/kernel/reduce.rs: RTTerm, RState, WState", "kontroli/src/kernel/reduce.rs: State::whnf", "kontroli/src/kernel/reduce.rs: match_pat"]}
{"id": "C73", "title": "What the generators of benchmarks print is accepted and as large as announced", "statement": "Whatever the number of rounds after which they are stopped, the five generators in examples/bench (id, prod_chain, abst_chain, btree_app, fst_snd) print texts that lex and parse, whose names are all distinct and resolve, that stand for exactly the expected commands, and that kocheck accepts, with and without eta, whatever is shared; the terms printed in round n have the number of occurrences that the comment of the generator announces (n occurrences of id, n of a, n abstractions, 2^n of f 0 0, 2^(n-1) of fst x y and of snd x y).", "quantifier": "all numbers of rounds, all file names that denote a module, all answers to queries about sharing, eta on and off, all sufficiently large amounts of fuel", "why_tests_cant": "The generators do not stop; a run of kocheck on their output covers one prefix, and the terms of fst_snd and btree_app double with each line.", "anchors": ["examples/bench/id.rs", "examples/bench/prod_chain.rs", "examples/bench/abst_chain.rs", "examples/bench/btree_app.rs", "examples/bench/fst_snd.rs", "kocheck/src/main.rs: main", "dedukti-parse/src/cmd.rs", "kontroli/src/kernel/infer_check.rs"]}
{"id": "C74", "title": "The example inf.dk is typable, but checking it never ends", "statement": "Checking examples/nat.dk followed by examples/bench/inf.dk without eta never returns, whatever the fuel and the sharing, and is accepted in no mode (threads, channel); all commands before its last definition are accepted, and in the context reached then, which has the Church-Rosser property, the type of the last definition is a type and its term has this type: so typability alone does not make checking succeed, and termination cannot be dropped from the theorems that say so.", "quantifier": "all amounts of fuel, all answers to queries about sharing, one or several threads, with and without channel", "why_tests_cant": "That a computation does not end cannot be observed by running it for any time.", "anchors": ["examples/bench/inf.dk", "examples/nat.dk", "kontroli/src/kernel/reduce.rs", "kontroli/src/kernel/convertible.rs", "kontroli/src/kernel/infer_check.rs"]}
{"id": "C75", "title": "Graphs of dependencies show the dependencies of the makefile", "statement": "For every text, dep2dot prints one edge per dependency of those lines that consist of a target and of words, separated by one colon between spaces, in their order; if all names are plain DOT names, what is printed is a directed graph of the DOT language with exactly these edges; for makefiles in the format of dkdep the edges are exactly the dependencies, and they are the same relation that koweb reads from the makefile. Not for all makefiles: with two spaces before the colon the names of nodes end with .dko and a space, modules in directories yield no DOT graph, and endings .dko are removed repeatedly.", "quantifier": "all texts; all lists of edges; all lists of rules whose module names contain no white space and do not end with .dko", "why_tests_cant": "The program has no tests; agreement with koweb concerns two independent parsers of makefiles on all inputs.", "anchors": ["misc/dep2dot.rs: main, trim", "koweb/src/parse_make.rs: create_graph"]}
{"id": "C76", "title": "Only readable UTF-8 files are accepted; others make kocheck panic", "statement": "kocheck accepts exactly if every file can be opened, can be read to its end, is UTF-8, and kocheck accepts these texts; on such files it does what the properties about texts say. Every other file consists of complete UTF-8 lines followed by a line that cannot be read; commands and errors in the complete lines are processed as usual, and if they are accepted then kocheck panics, in all modes, instead of returning an error (a comment in Latin-1, or a directory, suffices). With a channel the panic may also hide an error that is found without a channel.", "quantifier": "all files (bytes, possibly followed by a failure of reading), options, numbers of threads and schedules, kernels", "why_tests_cant": "There are no tests with files that are not UTF-8; the statement concerns all byte sequences and all positions of failures, and all interleavings.", "anchors": ["kocheck/src/process.rs: parse, run, produce", "kocheck/src/main.rs: main", "kocheck/src/path_read.rs: try_from"]}
{"id": "C77", "title": "kofmt as a program: what it prints for files and how it ends", "statement": "kofmt always ends, in exactly one way and with one text printed. It succeeds if it succeeds for each file, and then prints the outputs one after the other; otherwise the outputs up to the first bad file are printed. When lexing it succeeds exactly on UTF-8 files without unrecognised characters; when parsing, exactly on UTF-8 files in the grammar. Files that cannot be read are an error, but a panic when read line by line, after the commands in the complete lines before were printed. Formatting files that end with a command keeps the sequence of tokens, and formatting the output again changes nothing. --quiet prints nothing and does not change how parsing ends.", "quantifier": "all lists of files (bytes, possibly followed by a failure of reading), all modes, all behaviours of the lexer on unrecognised characters", "why_tests_cant": "kofmt has no tests; the statement concerns all byte sequences, all failures and all lists of files.", "anchors": ["kofmt/src/main.rs: print_token, print_tokens, print_cmds, main", "dedukti-parse/src/cmd.rs: Display for Command"]}
{"id": "C78", "title": "Formatting with kofmt does not change what kocheck and koweb accept", "statement": "If every file is replaced by what kofmt prints for it, then kocheck accepts the new files exactly if it accepts the old ones, with all options; if the files are in the grammar, also errors are the same. More generally, files with the same modules and commands are treated alike, however they are laid out. koweb gives the same results. Conditions: comments are closed; for kocheck, names do not extend over lines and lines do not end with CR LF.", "quantifier": "all lists of files, kernels, options, threads and schedules, behaviours of the lexer on unrecognised characters", "why_tests_cant": "It relates three programs on all texts; there are no tests of kofmt.", "anchors": ["kofmt/src/main.rs: print_tokens, main", "dedukti-parse/src/lex.rs: Token", "dedukti-parse/src/lib.rs: Lazy, Strict", "kocheck/src/process.rs: run, produce, consume", "koweb/src/lib.rs"]}
{"id": "C79", "title": "Names of bound variables do not matter", "statement": "If the commands of two programs differ only in the names of bound variables, parameters and variables of rules (without capture), then the programs have the same meaning, and kocheck and koweb give the same verdict or the same error for both, with any counts of references and any tables of pointers, unless checking one of them does not end. Without rules, and if nothing is inferred, exactly the same programs are accepted, with any threads and schedules.", "quantifier": "all pairs of programs that differ in names, texts, counts of references, tables of pointers, options, threads, schedules, behaviours of the lexer on unrecognised characters", "why_tests_cant": "There are infinitely many renamings; the shortcut of convertibility compares terms with their names, so that runs for renamed programs go through different reductions.", "anchors": ["kontroli/src/share.rs", "kontroli/src/comb.rs: Comb", "kontroli/src/kernel/reduce.rs: convertible", "kontroli/src/kernel/sterm.rs: STerm", "kocheck/src/process.rs", "koweb/src/lib.rs"]}
{"id": "C80", "title": "Names of symbols and modules do not matter", "statement": "If modules and names of a program are replaced such that different ones stay different (and Type and _ are kept), and bound variables are renamed in addition, then the program has the same meaning, and kocheck and koweb give the same verdict or the same error (with the new names), unless checking one of them does not end. Without rules, and if nothing is inferred, exactly the same programs are accepted, with any threads and schedules.", "quantifier": "all injective renamings of modules and of names, programs in several files and nested modules, texts, counts of references, tables of pointers, options, threads, schedules, behaviours of the lexer on unrecognised characters", "why_tests_cant": "There are infinitely many renamings and programs; names are resolved through nested modules and hidden by bound variables.", "anchors": ["kontroli/src/symbols.rs: Symbols", "kontroli/src/share.rs", "dedukti-parse/src/symb.rs", "dedukti-parse/src/term.rs", "kocheck/src/path_read.rs", "kocheck/src/process.rs", "koweb/src/lib.rs"]}
{"id": "C81", "title": "Accepted theorems hold in all models of the assumptions", "statement": "Types are read as propositions of intuitionistic logic: products are implications, and symbols are propositional variables whatever their arguments are. If kocheck or koweb accepts a program (without rules, or with structurally recursive ones), then the types of its theorems and definitions hold in every Kripke model in which the declared types hold and both sides of definitions and rules are equivalent; and the definitions can always be satisfied. So a symbol at the end of no declared type is never inhabited, whatever else the program contains, and Peirce's law is not provable. With rules that kocheck does not check, this is false.", "quantifier": "all programs in several files, Kripke models, counts of references, tables of pointers, with or without eta, threads, schedules, behaviours of the lexer on unrecognised characters", "why_tests_cant": "It says that no accepted program proves certain types; this is a statement about infinitely many programs and models, with terms of any size.", "anchors": ["kontroli/src/typing.rs", "kontroli/src/kernel/infer_check.rs", "kontroli/src/kernel/convertible.rs", "kontroli/src/kernel/reduce.rs", "kontroli/src/gctx.rs", "kocheck/src/process.rs", "kocheck/src/infer_checks.rs", "koweb/src/lib.rs"]}
{"id": "C82", "title": "Unused commands may be removed", "statement": "If kocheck or koweb accepts a program, then it does not reject the program without some of the commands, provided that the remaining commands do not refer to the symbols that the removed commands introduce or give rules for (the remaining commands keep their order; symbols get other numbers). Without rewrite rules in what remains, it is accepted. So a rejected program stays rejected whatever commands for other symbols are inserted. It is not enough that later commands do not mention the symbol of a removed rule.", "quantifier": "all pairs of programs in several files of which one contains the commands of the other, counts of references, tables of pointers (also different ones for both programs), with or without eta, threads, schedules, behaviours of the lexer on unrecognised characters", "why_tests_cant": "A test removes one command of one program. The claim relates all runs on pairs of programs of any length with different contexts, addresses and reference counts.", "anchors": ["kontroli/src/gctx.rs", "kontroli/src/typing.rs", "kontroli/src/kernel/infer_check.rs", "kontroli/src/kernel/convertible.rs", "kontroli/src/kernel/reduce.rs", "kontroli/src/symbol.rs", "kocheck/src/process.rs", "kocheck/src/infer_checks.rs", "koweb/src/lib.rs"]}
{"id": "C83", "title": "Independent introductions may be exchanged", "statement": "If kocheck or koweb accepts a program in which two introductions follow each other and the second one does not refer to the symbol of the first one, then it does not reject the program with the two in the other order (all symbols keep their meaning; the numbers of the two are exchanged everywhere). Without rewrite rules it accepts it. A command with rewrite rules may not be exchanged with an introduction, in neither direction, even if the introduction does not mention the symbols of the left-hand sides.", "quantifier": "all pairs of programs in several files that differ by such an exchange, counts of references, tables of pointers (also different ones for both programs), with or without eta, threads, schedules, behaviours of the lexer on unrecognised characters", "why_tests_cant": "A test exchanges two commands of one program. The claim relates all runs on pairs of programs of any length, with different contexts, addresses and reference counts, also for rewrite systems that are not confluent or do not terminate.", "anchors": ["kontroli/src/gctx.rs", "kontroli/src/typing.rs", "kontroli/src/kernel/infer_check.rs", "kontroli/src/kernel/convertible.rs", "kontroli/src/kernel/reduce.rs", "kontroli/src/symbol.rs", "kontroli/src/share.rs", "kocheck/src/process.rs", "kocheck/src/infer_checks.rs", "koweb/src/lib.rs"]}
{"id": "C84", "title": "Terms instead of symbols, and implementations instead of assumptions", "statement": "For programs without rewrite rules: if kocheck accepts a program, then it accepts (in finite time) the program where definitions and theorems are removed and their terms put in their place, provided that these terms have domains at their abstractions. If kocheck accepts a theory and another program that has, for the assumptions of the theory, symbols with the corresponding types, then it accepts that program followed by the rest of the theory with these symbols put for the assumptions. The same for koweb. Without domains this is false.", "quantifier": "all programs without rewrite rules in several files, all interpretations of symbols by closed terms, counts of references, tables of pointers, with or without eta, threads, schedules, behaviours of the lexer on unrecognised characters", "why_tests_cant": "A test instantiates one theory once. The claim covers all theories, all their implementations, and all runs on the resulting programs.", "anchors": ["kontroli/src/kernel/infer_check.rs", "kontroli/src/kernel/convertible.rs", "kontroli/src/kernel/reduce.rs", "kontroli/src/typing.rs", "kontroli/src/gctx.rs", "kocheck/src/process.rs", "kocheck/src/infer_checks.rs", "koweb/src/lib.rs", "dedukti-parse/examples/inline.rs"]}
{"id": "C85", "title": "Without rewrite rules, the order of introductions does not matter", "statement": "Let two programs without rewrite rules consist of the same introductions, in any two orders in which all names can be resolved, possibly with other names and distributed over other files. Then kocheck accepts the one (with some number of steps, and then with all larger ones) if and only if it accepts the other. The same for koweb. With rewrite rules this is false.", "quantifier": "all programs without rewrite rules in several files, all their permutations, counts of references, tables of pointers, with or without eta, threads, schedules, behaviours of the lexer on unrecognised characters", "why_tests_cant": "The number of orders grows exponentially with the program, and the claim is about all runs on all programs in all orders.", "anchors": ["kontroli/src/kernel/infer_check.rs", "kontroli/src/kernel/convertible.rs", "kontroli/src/kernel/reduce.rs", "kontroli/src/typing.rs", "kontroli/src/gctx.rs", "kontroli/src/symbols.rs", "kocheck/src/process.rs", "kocheck/src/infer_checks.rs", "koweb/src/lib.rs"]}
{"id": "C86", "title": "Errors are reported for the first command at fault, for the right reason", "statement": "If kocheck without threads reports an error for files that can be parsed, then the program has a command such that all commands before it are well-typed, and this command contains an undeclared name (the reported one), or a rule whose left-hand side is no pattern, or introduces a name that exists in the module, or contains a rule for a symbol without rules, or is not well-typed for the reason that the error names (see C87), according to the error; the kernel sees it iff all names can be resolved. Without rewrite rules it is the first command that is not typable. The same for koweb. An error about a path, about opening or about parsing, with any options, concerns a file that has this defect, and all files before it are accepted. With threads, an error of a later command may be reported. There is only one such command: a program has at most one command such that the program before it is typable, but not together with it.", "quantifier": "all programs in several files, numbers of steps, counts of references, tables of pointers, with or without eta, behaviours of the lexer on unrecognised characters; for files: all options and schedules", "why_tests_cant": "Tests see particular wrong programs. The claim is about the error for every wrong program, with any number of errors in any order.", "anchors": ["kontroli/src/error.rs", "kontroli/src/share.rs", "kontroli/src/symbols.rs", "kontroli/src/gctx.rs", "kontroli/src/kernel/infer_check.rs", "kocheck/src/error.rs", "kocheck/src/process.rs", "kocheck/src/infer_checks.rs", "kocheck/src/path_read.rs", "koweb/src/lib.rs"]}
{"id": "C87", "title": "Errors of the kernel say what is wrong", "statement": "If inference, verification of a term against a type, or the check of a command returns an error, then there is a place in the term with exactly the defect that the error names (an abstraction without domain, a domain or product whose type is not the sort required, a function or an expected type that is no product, an argument or body whose type differs from the required one, a symbol or variable without type), and everything that is looked at before this place is well-typed. For confluent rules without eta, the errors ProductExpected, Unconvertible, TypeNotFound, KindNotTypable mean that the term has no type, or does not have the given type, whether or not evaluation terminates on other terms. For terms whose symbols and variables have types, TypeNotFound and KindNotTypable never occur; so, without threads, kocheck and koweb never report them, and neither TypeAndTermEmpty, for files that parse; with threads, kocheck may report TypeNotFound for a symbol whose introduction has failed. The error DomainFreeAbstraction is also reported for terms that have a type.", "quantifier": "all contexts and signatures built from terms without empty applications, terms, commands, numbers of steps, counts of references, with or without eta", "why_tests_cant": "Tests see particular errors. The claim is about the error for every wrong term and command.", "anchors": ["kontroli/src/error.rs", "kontroli/src/kernel/infer_check.rs", "kontroli/src/kernel/mod.rs", "kontroli/src/kernel/convertible.rs", "kocheck/src/infer_checks.rs"]}
{"id": "C88", "title": "What is reported without threads may be reported with threads", "statement": "If no command contains rewrite rules, then every success and every error that kocheck has as result without threads (with or without a channel, for files with or without errors, with or without omitted stages, for any kernel) is also a possible result with threads. If the commands up to some point succeed without threads, then with threads no error of one of these commands is reported, also with rules. With rules, an error reported without threads may be impossible with threads, because all types of the rules of a command are inferred before their right-hand sides are checked.", "quantifier": "all files, sequences of commands and events, kernels, options, schedules of threads", "why_tests_cant": "Schedules of threads cannot be enumerated by tests, and a test sees only one of them.", "anchors": ["kocheck/src/infer_checks.rs", "kocheck/src/process.rs", "kocheck/src/main.rs"]}
