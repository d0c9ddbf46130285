# Formal model of kontroli-rs in Rocq (Coq 8.16.1)

## Layers

1. **Model** (`theories/Model*.v`): executable Gallina functions that follow the Rust code function by function.
   Each definition cites file and lines. Long/short terms (`LTerm`, `STerm`), the lazy abstract machine with its heap of
   `Rc<RefCell<WState>>` and `Rc<Thunk<..>>` cells, the answers of `Rc::get_mut` (an arbitrary oracle), panics
   (RefCell borrow, thunk re-entrance, `unwrap`, `unreachable!`, subtraction below zero) are all explicit.
   Unbounded loops/recursions take fuel; running out of fuel is a separate result `Fuel`, never an ordinary answer.
2. **Specification** (`theories/Spec*.v`): textbook lambda terms with binary application, substitution, conversion as the
   least congruence containing beta, rules, (eta), and a declarative typing judgement; a grammar; a named-to-de-Bruijn
   scoping function; etc. These files do not import the model (except for shared syntax where unavoidable).
3. **Reference machine** (`theories/Ref*.v`): the machine over specification terms; links 1 and 2:
   simulation (model run => reference run) and soundness (reference run => specification).
4. **Properties** (`theories/Prop*.v`): the theorems of MANIFEST.json with non-vacuity examples and `Print Assumptions`.

## Plan per property

| id | modelled | proof |
|----|----------|-------|
| C01,C02 | infer/check of `kernel/infer_check.rs` | simulation into reference machine + induction on fuel for declarative typing |
| C03,C04,C11,C12 | `kernel/reduce.rs`, `kernel/convertible.rs` with heap | ghost assignment of a specification term to each heap cell, preserved up to conversion by every mutation |
| C05 | same | determinism of whnf, induction on fuel with swapped constraints |
| C06 | oracle for Rc uniqueness, long/short terms | simulation into the (oracle-free) reference machine |
| C07 | explicit panics | acyclicity (rank) invariant of the heap |
| C08 | fuel | fuel monotonicity |
| C09 | `kernel/subst.rs` | structural induction |
| C10 | whnf result | stable mismatch predicate on heap cells |
| C13 | `kernel/mod.rs` | sort claim proved where checked; refuted where the code does not check |
| C14 | rewrite + check | from C01, C02 |
| C15,C16,C42 | `gctx.rs` | induction on operation histories; atomicity of failed inserts refuted |
| C17 | gctx extension | simulation of runs under two contexts agreeing on occurring symbols |
| C18-C22 | `kocheck` | induction on command streams; transition system for parallel schedules |
| C23-C27 | `symbols.rs`, `share.rs` (external crate `nested_modules` modelled from its documented behaviour) | induction on histories / terms |
| C28-C36 | `dedukti-parse` incl. lexer | state machine invariants, grammar soundness/completeness, round trips |
| C37,C38 | `kofmt` | lexer lemmas; refutation for `--parse` |
| C39,C40 | `koweb/parse_make.rs` | induction on rank of acyclic graph; non-termination witness |
| C41 | `path_read.rs`, Unix `std::path` fragment | case analysis |
| C47,C48 | `convertible`, `whnf` | Church-Rosser for orthogonal rules by parallel reduction (`RedConfl`); evaluated heap cells are stuck for every reduct of what they read back to (`RefStuck`); convertible stuck terms have the same head (`RedStuck`) |
| C49 | `infer`, `check` | two-mode typing (`SpecBidir`), also a sharper form of C01 and C02; completeness by induction on fuel, from C47 and C48 |
| C50 | `dedukti-parse/src/lex.rs` | token patterns and longest match specified as a relation (`SpecLex`); the lexer satisfies it, and the relation is functional where there are no errors |
| C51 | `State::whnf`, `rewrite`, `intro` | preservation of types (`SpecType`), proved for the reference machine including its heap (`TypePres`, `RefTyped`); the conditions are established for accepted programs in `MainTyped` |
| C52 | `infer` | inferred types have sorts; by induction on fuel (`SoundSorted`), from C51 |
| C53 | `infer` | uniqueness of types for the two-mode judgement (`TypeFacts`), and C51 |
| C54,C55 | `whnf`, `convertible` | strong normalisation as accessibility (`SpecSN`); every mutation of the heap is a reduction of what the cells read back to (`RefRed`); termination by induction on reduction and subterms (`RedSN`), for the model itself with its sharing (`TotReduce`, `TotConv`); a complete enumeration of steps for examples (`RedEnum`) |
| C56 | `infer`, `check`, `infer_check` of kocheck | a judgement on terms without domains (`SpecDomain`) for which the kernel is sound (`SoundDom`), so that every term that it evaluates is normalising; termination by induction on the term (`TotInfer`); normalisation of an example with dependent types by reducibility (`SnVec`) |
| C57 | `infer_checks` on whole programs | invariant over prefixes: the kernel is sound for the judgement of `SpecDomain`, and the type of a successful check has a sort (`DomUnique`), so that each accepted command keeps the context well-typed (`MainProgTotal`) |
| C58 | `infer`, `check`, `Intro`, `Rule::check`, `infer_checks` | the reference machine is sound and complete for the textbook rules with types for terms with domains (`SpecDerive`, `RefDecide`); subject reduction and uniqueness of types remove the error cases left open by C56 (`DeriveFacts`, `MainDecide`) |
| C59 | loop in the documentation of `kontroli/src/lib.rs` and in `benches/bench.rs` | induction on the commands; soundness by that of `Intro` (C01, C02) with rules as further assumptions (`SpecLib.trusted`), comparison with `infer_checks` (`MainLib`) |
| C60 | `lex.rs`: `symb`, `moustache`, `comment` | strings are lists of bytes, offsets are numbers, a cut inside a character is a panic (`ModelUtf8`); well-formed UTF-8 as in the Unicode standard (`SpecUtf8`); a string can be cut around any ASCII character (`MainUtf8`) |
| C61 | `infer_checks` of kocheck on programs without rules | signatures of definitions as an inductive predicate (`SpecDef`); strong normalisation by reducibility, where the reducibility predicate follows the arity of the type after erasing dependencies (`SnBase`), and unfolding a definition is well-founded since its body only uses previous symbols (`SnDef`); the conditions of C57 and C58 then hold for every such program (`MainDef`) |
| C62 | kocheck and koweb as a whole, without rules | typable commands over the specification (`SpecWhole`); the signature of the specification and that of the model may differ in the types of symbols defined without a type, which are convertible (`alike` in `MainWhole`); each command either extends both or is not typable in either |
| C63 | the tools `symcount` and `inline` | occurrences in lists of constants; inlining as an inductive relation where definitions are never forgotten (`SpecTools`); invariant: what the code has forgotten does not occur any more; the output is parsed again by C38 |
| C64 | `infer_checks` of kocheck on programs with structurally recursive functions | signatures built by declarations, definitions and typed rules with arguments (`SpecRec.built`), and a syntactic condition on rules (`SpecRec.structural`): left-linear, overlaps as in C71, patterns made of variables, jokers and rule-less symbols whose arguments have base types, recursive calls on parts of one fixed argument; strong normalisation by reducibility (`SnRec`), where calls of a function are reducible by induction on the data to which the recursive argument reduces; the condition can be tested by computation (`RecCheck`) |
| C65 | kocheck and koweb, from texts to result, on programs with structurally recursive functions | `SpecWholeRec`: the typing rules of `SpecDerive` for commands with rules (`typable_rule`: both sides of a rule that the kernel checks have a common type in the given context), and a condition on the sources (`recursive_sources`) that only mentions the signature given by these rules, not the program; C62 and C65 share the decision of one command (`MainAlike.step_decides`); a test by computation for given texts (`RecTest`) |
| C66 | `STerm::apply_subst`, `SComb::apply_subst`: the returned flag, the cells that are kept | `SpecMention.mentions`: a variable from `k` on occurs in a term |
| C67 | `step`, `step1`, `step2`, `convertible`, `State::whnf`, `GCtx::eta`, `--eta` | `SpecConv.conv` with eta, `SpecEta.linear_sources`, `SpecWhole.typable_sources` |
| C68 | `infer_checks` of kocheck on programs with recursive functions over inductive types | a syntactic condition on rules (`SpecInd.inductive_sig`) with a classification of types into flat and inductive ones that is quantified existentially; strong normalisation by reducibility candidates (`SnInd`: the meaning of a type is given by an inductive relation on types up to conversion, so that types may be computed by rules; values of inductive types are accessible, `W`; `SnIndFun`: patterns, right-hand sides, and calls by induction on the parts of the recursive argument); the condition can be tested by computation (`IndCheck`) |
| C69 | kocheck and koweb, from texts to result, on these programs | as for C65; `SpecWholeRec.sources_in` with a condition on signatures as parameter, here `SpecInd.recursive_sig` |
| C70 | `Display` of terms, patterns, rules, local contexts, events (`ModelShow`) | trees with names (`SpecShow`); texts of trees are uniquely readable, because every word ends before a space, a dot, a comma or a parenthesis |
| C71 | kocheck on `examples/*.dk` (not `pure.dk` and the sudoku) | `SpecRed.complete`: a core of weakly orthogonal rules, from which all other rules follow; `SpecDomain.named`, `SpecRec.typed_rule`: jokers as further variables; these are the conditions of C57, C58, C64, C65, C68, C69. `CompCheck` computes such a core by leaving out special cases of other rules, and tests with the kernel itself that they follow (sound by C04); `RecCheck.typed_ruleb` finds types for the variables of unchecked rules from the types of the symbols around them |
| C72 | evaluation of shared states and terms (`kernel/reduce.rs`) | `SpecWork.keeps`: what may become of the cells of a heap; `state_done`, `term_done`, `state_busy`, `term_busy`; `lsize` |
| C73 | the generators of benchmarks (`examples/bench/*.rs`, `ModelBench`): the text printed after n rounds; `print!`/`println!` as concatenation, `{}` of a `usize` as decimal digits, `usize` as `nat` | `SpecBench`: the commands that the texts stand for (`id_meaning`, ...), `checks` (by `SpecProgram.source_of` and `elaborates`), `occurs`, `absts` |
| C74 | nothing new; the texts of `examples/nat.dk` and `examples/bench/inf.dk` | `SpecWhole.type_or_kind`, `checks`; `SpecRed.church_rosser` |
| C75 | `misc/dep2dot.rs` (`ModelDot`): lines, splitting at ` : ` and at white space, removal of endings, printing. White space is that of ASCII; input that is not UTF-8 and failing output are not modelled | `SpecDot`: `rule_line`, `words_of`, `trimmed`, `edges_of`; the DOT language with unquoted names and edge statements (`dot_graph`); the format of dkdep (`make_text`) |
| C76 | `process.rs:44-51` `parse` with `BufRead::lines` and `line.unwrap()`, `run`, `produce` and `main` where reading panics (`ModelRead`). A file is a sequence of bytes, followed by its end or by a failure of reading; the check for UTF-8 and `lines` of the standard library are modelled | `SpecUtf8.utf8` (Unicode, table 3-7); `SpecRead`: `has_text`, `bad_start`, `whole_lines` |
| C77 | all of `kofmt/src/main.rs` except `clap` and logging (`ModelKofmt`): `print_tokens` and `print_cmds` with what is printed before a panic, `main` over several files, `--quiet`. `--share` concerns only the representation of strings and is not modelled; writing to the standard output is assumed not to fail | `SpecKofmt`: `is_text`, `formattable`, `shown`, `parsed`; `SpecUtf8`, `SpecRead`, the grammars of `SpecSyntax` and `SpecProgram` |
| C78 | kofmt (`ModelKofmt`) together with kocheck and koweb (`ModelMain`) | `SpecFormat`: `formats`, `in_lines`, `formatted`; `SpecProgram.source_of` |
| C79 | the sharing of commands, the kernel and both programs on renamed programs (`ModelShare`, `ModelReduce`, `ModelMain`) | `SpecAlpha`: `alpha_sources`; `SpecWhole.elaborates` |
| C80 | scoping, symbol tables, sharing, the kernel and both programs on renamed programs (`ModelParse`, `ModelSymbols`, `ModelShare`, `ModelMain`) | `SpecRename`: `renaming`, `rn_sources`, `rn_result`; `SpecAlpha`; `SpecWhole.elaborates` |
| C81 | kocheck and koweb with the kernel of the code (`ModelMain`) | `SpecSem`: `kripke`, `holds`, `models`, `proves`, `peirce`; `SpecWhole.elaborates`. Models ignore arguments of symbols, so they say nothing about encodings in which all propositions are arguments of one symbol |
| C82 | kocheck and koweb with the kernel of the code (`ModelMain`) | `SpecEmbed`: `cm_vcmd` (other symbols), `injective`, `apart`, `embeds`; `SpecWhole.elaborates` |
| C83 | kocheck and koweb with the kernel of the code (`ModelMain`) | `SpecOrder`: `occurs`, `exchange`, `exchanged`; `SpecEmbed.cm_vcmd`; `SpecWhole.elaborates` |
| C84 | kocheck and koweb with the kernel of the code (`ModelMain`) | `SpecInterp`: `put`, `closed_terms`, `interprets`; `SpecWhole.elaborates` |
| C85 | kocheck and koweb with the kernel of the code (`ModelMain`) | `SpecReorder.reordered` (permutation of the commands); `SpecWhole.elaborates` |
| C86 | kocheck and koweb with the kernel of the code (`ModelMain`) | `SpecBlame`: `at_fault`, `reports`, `file_fault`; `SpecProgram`, `SpecWhole` |
| C87 | `infer`, `check`, `check_check`, `infer_check` with the kernel of the code | `SpecFault`: `inf_fault`, `chk_fault`, `chk_bad`, `command_fault`; `SpecBidir`, `SpecTyping` |
| C88 | `infer_checks_seq`, `infer_checks_par`, `run`, `consume`, `kocheck` with any kernel | none beyond `SpecProgram`, `SpecWhole`: the claim relates the results of the two modes |
| C43-C46 | `kocheck/main.rs`, `process.rs` and `koweb/lib.rs` on texts | composition of the above; elaboration relation (`SpecProgram`) equals sharing; reading lines one after the other (`reads`) equals the lazy parser |

## Trusted base

* The kernel of Coq 8.16.1 (including `vm_compute`, used in examples and refutations).
* `Print Assumptions` stands beneath every theorem of `Prop*.v` and prints "Closed under the global context" for each:
  no axiom, neither of our own nor of the standard library, is used.
  (A listing of all axioms of the loaded environment, such as that of `coqchk`, also names `Coq.ssr.ssrunder.Under_rel.*`:
  the fields of a module type of the standard library, loaded with `ssreflect` by the library files we import.)
* That the definitions in `Model*.v` say what the Rust code does. They were written by reading `/repo` as text; the code
  was not run. Each definition cites file and lines.
* That the definitions in `Spec*.v` mean what the statements in `properties.jsonl` say.
* The behaviour of external code as listed under "Library assumptions".

## What is modelled

| file | modelled in | not modelled |
|------|-------------|--------------|
| `kontroli/src/comb.rs`, `lterm.rs`, `pattern.rs`, `rule.rs`, `kernel/sterm.rs` | `ModelTerm`, `ModelInfer` (`TryFrom`), `ModelShare`, `ModelShow` (`Display`) | |
| `kontroli/src/kernel/subst.rs` | `ModelSubst` | `usize` overflow |
| `kontroli/src/kernel/reduce.rs`, `convertible.rs` | `ModelReduce` | when something is logged; stack overflow |
| `kontroli/src/kernel/infer_check.rs`, `mod.rs` | `ModelInfer`, `ModelShow` (`Display` of contexts) | when something is logged |
| `kontroli/src/gctx.rs`, `typing.rs` | `ModelGctx` | |
| `kontroli/src/symbols.rs`, `symbol.rs` | `ModelSymbols` (symbol = address), `ModelShow` (`Display`) | `Hash` |
| `kontroli/src/share.rs`, `command.rs` | `ModelShare`, `ModelCommand` | |
| `kontroli/src/app.rs`, `error.rs` | errors in `ModelProcess`, `format` in `ModelShow` | |
| `dedukti-parse/src/lex.rs` | `ModelLex`, `ModelUtf8` | code generated by `logos` (its meaning is modelled) |
| `dedukti-parse/src/term.rs`, `cmd.rs`, `symb.rs`, `lib.rs` | `ModelSyntax`, `ModelParse`, `ModelFmt` (`Display`) | `map_const` (changes the string type only); `Lazy::last` (keeps a string alive) |
| `kofmt/src/main.rs` | `ModelFmt`, `ModelKofmt` | option parsing, logging |
| `kocheck/src/{process,infer_checks,event,stage,opt,error,main}.rs` | `ModelProcess`, `ModelMain`, `ModelShow` (`Display` of events), `ModelRead` (bytes, errors while reading) | number of threads; option parsing |
| `kocheck/src/path_read.rs` | `ModelPath` | opening of files |
| `koweb/src/parse_make.rs` | `ModelMake` | conversion to JavaScript values |
| `koweb/src/lib.rs` | `ModelMain` (`fetch` is a parameter) | logging, display of events in the browser |
| `kontroli/src/lib.rs` (documentation), `kontroli/benches/bench.rs` | `ModelLib` | time measurement |
| `dedukti-parse/examples/{symcount,inline}.rs`, `README.md` there | `ModelTools` (the commands `grep` and `sed` of the README are a predicate on names) | order of lines printed by `symcount`; reading of files |
| `misc/dep2dot.rs` | `ModelDot` | reading of standard input |
| `examples/*.dk`, `examples/bench/*.dk` and `examples/bench/*.rs` | texts in `TestExamples`, `SamplesInf`, generators in `ModelBench` | `pure.dk`, the sudoku |
| `koweb/src/fetch.rs`, `koweb/js`, other files of `misc` | | everything |

## Simplifications and deviations

* **Numbers.** `usize` is `nat`: overflow is not modelled; subtraction below zero is a `Panic`.
* **Strings** are lists of bytes (`ascii`). Rust strings are UTF-8; the lexer treats non-ASCII characters as errors except
  in comments and moustaches, where the bytes are copied (C60: never cutting a character). Paths consist of ASCII characters.
* **Recursion.** Functions whose termination is not structural take a number (fuel). Its exhaustion is a separate result
  (`Fuel`); theorems quantify over all fuel. Stack depth is not modelled: where the Rust code would overflow its stack the
  model has `Fuel` (or an answer, given enough fuel).
* **Sharing.** An `Rc` is represented by its content; `Rc::get_mut` answers according to an arbitrary oracle
  (`uniq : nat -> bool`, indexed by the number of questions so far), over which all theorems quantify. This covers more
  behaviours than the code has. `Rc::try_unwrap` has the same value in both cases.
* **Heap.** States and thunks of the abstract machine live in an explicit heap, with flags for mutable borrows and
  re-entrance. Cells are never freed. `STerm::whnf` starts with an empty heap of its own, because nothing it allocates is
  reachable from elsewhere. Shared borrows never span an evaluation, hence only mutable borrows are recorded.
* **Maps** are association lists with the newest binding first.
* **Local context of inference.** `LCtx::bind` pushes, runs and pops; the model passes the extended context. On an error the
  context is abandoned with the query.
* **Concurrency** (`rayon::par_bridge`): a transition system whose steps are pulling a command (under the lock; runs
  sharing and inference) and completing a check. All interleavings are covered. Cancellation after an error is covered,
  since a run may stop anywhere once there is an error.
* **Channels** (`flume`): the producer sends a prefix of the events if the consumer has ended, all of them otherwise.
* **Kernel queries from kocheck** are functions of context and query; `real_kernel` instantiates them with the kernel
  model, for any choice of oracle per query and any fuel. C06 and C08 show that answers depend on neither.
* **Lexer.** At each position the longest match wins, keywords win over identifiers. The number of bytes covered by an error
  token is a parameter (`junk`) over which all theorems quantify. `comment` visits characters one by one where the code
  jumps with `find`; `ModelUtf8` follows the code with offsets and panics, and C60 shows that the result is the same.

## Library assumptions

* `logos` 0.12: as in the previous item; after an error it continues at the boundary of a character (C60); `bump` panics elsewhere. `nested_modules` 0.2: see the head of `ModelSymbols.v`.
* `std::path` (Unix), `str::lines`, `str::split`: documented behaviour. `lazy_st::Thunk`: forcing evaluates at most once;
  re-entrant forcing panics. `typed_arena`: every allocation has a new address. `im::HashMap`, `FnvHashMap`: finite maps.
* `rayon`, `flume`: as described above.

## Specification choices

* `SpecTerm`: lambda terms with binary application; an abstraction may lack its domain (`ULam`).
* `SpecConv.conv`: least congruence containing beta, rule instances, irrelevance of domain annotations, and eta if enabled.
  A rule is usable if each of its context variables occurs in its left-hand side (others never fire, see C11).
  Jokers match anything.
* `SpecRed.red`: one step of beta or a rule anywhere in a term without domain annotations; `church_rosser` relates it, together with
  eta steps (`eta_red`) if eta is enabled, to `conv`. `eta_safe`: eta is off, or all rules are orthogonal and without arguments (definitions).
* `SpecSN`: no infinite sequence of steps of `red`. Rules that are not left-linear are excluded where termination is claimed,
  because such a rule fires on convertible arguments, and then the result is not a reduct of the term.
* `SpecTyping.has_type`: lambda-Pi calculus modulo. The conversion rule does not require the new type to be typed, because
  the code does not check it: without subject reduction, which fails for arbitrary rewrite rules, it is not guaranteed.
  For the same reason, the domain annotation of an abstraction is required to be typable, not to have type `Type`
  (`check` does not verify more).
* `SpecBidir.infers`, `checks`: typing in two modes; conversion only where an application needs a product, where an
  abstraction is verified, and at the change of mode.
* `SpecType`: signatures whose rules preserve types. Injectivity of products is a property of conversion that is assumed
  where needed; it follows from the Church-Rosser property.
* Grammar and scoping (`SpecSyntax`), lines (`SpecParse`), makefiles and paths (`SpecMake`), runs of kocheck
  (`SpecProcess`), failing commands (`SpecFails`), histories of context operations and queries (`SpecQuery`), symbol tables (`SpecSymbols`), sharing
  (`SpecShare`), programs (`SpecProgram`) are defined without reference to model functions; they share the data types of syntax.

## Findings (claims that are false of the code)

* **C13**: the stated type of a theorem or definition need only be typable, not a proper type. In the contexts of C57, the subsequent check of the term fails unless it is one (`C13_accepted`, `C57_program_types`).
* **C11**: a rule with a context variable that is absent from its left-hand side is accepted but never fires.
* **C18**: rules with jokers or unannotated variables are added without any type check (with a warning).
* **C30**: when the input ends within a command or comment, the lazy parser returns `ExpectedInput` forever.
* **C31**: after an error, names bound in the failed command stay in scope.
* **C34**: names (`{|..|}`) over several lines, input that ends after an unfinished pragma, and the order of results around errors are
  treated differently by the lazy and the strict parser.
* **C21**: with `--channel-capacity`, if a file name is no module path, then that error or an error in an earlier file is reported, depending on the schedule; without, always the latter (`C21_errors_refuted`).
* **C37**: an unclosed comment is lost by `kofmt`.
* **C38**: `kofmt --parse` prints no dots, so its output does not parse.
* **C40**: a cyclic makefile makes `get_all_children` recurse forever.
* **C45**: `check_multiple` reports no error if no program of the given name is listed; it ignores dependencies without an
  address (`zip`); it panics if the name of a file has less than three characters.
* **C46**: a text that ends with a pragma is accepted by kocheck and rejected by koweb.
* **C47**: with eta, convertibility is neither complete nor transitive even for orthogonal rules (`f x --> x`, `g x --> x`:
  `f` and `g` are both found convertible with `x => x`, but not with each other). Without eta it is complete if reduction
  has the Church-Rosser property, and incomplete in general.
* **C49**: inferred types are compared with `Type` without evaluation, so that a product over a term whose type is only
  convertible with `Type` is rejected (this needs a rule that was not type-checked).
* **C51**: as rules with jokers or unannotated variables are not checked (C18), an accepted program may contain rules under
  which evaluation changes the type of a term.
* **C55**: with eta, comparing two normal forms may run forever (`f` and `x => c` with the rule `f x --> f x`).
* **C56**: a rule `F x --> F x` on types passes all checks, and makes a definition that applies a term of type `F c` run forever.
* **C57**: with `--jobs`, a program that sequential processing rejects may run forever, because commands after the rejected one are evaluated before its check has finished.
* **C58** (no defect): in contexts as in C56, an error is never spurious. Typability includes that abstractions without domain occur only in arguments or where the command gives a type.
* **C59** (documented): the loop shown in the documentation of the library adds rules "without typechecking them"; ill-typed rules are accepted (`C59_rules_refuted`). This is the only difference to kocheck.
* **C60** (no defect).
* **C61** (no defect). Sequential processing; for concurrent processing see C57.
* **C62** (no defect). With `--jobs`, inference goes on after a check that failed, thus in a signature that may be ill-typed; only the set of accepted programs is claimed to be the same then, not that every rejected program is rejected in finite time.
* **C63** (defects of the tools). `symcount` ignores rules, so a count of 0 does not mean that a constant is never used, and a constant used once may be used in rules as well, which `inline` does not change. `inline` does not distinguish bound variables from constants, and drops the type of what it inlines. Hence the pipeline of `dedukti-parse/examples/README.md` turns programs accepted by kocheck into rejected ones (three witnesses), and one that is rejected into an accepted one.
* **C64** (no defect). The kernel does not check that the types in the context of a rule are types, so this remains a condition (`cmd_typed`, as in C57). Rules without arguments are not covered, and functions that return types only by C68. Without guarded recursion, or with functions as arguments of the symbols in patterns, accepted rules may make reduction diverge (`C64_guard_refuted`, `C64_first_order_refuted`), so the kernel gives no guarantee of termination by itself.
* **C65** (no defect). `recursive_sources` speaks about a command only when all commands before it are typable, so that nothing is assumed about programs beyond their first wrong command. In the specification, a definition without type may have any type that its term has; the test `C65_test` uses that the choice does not matter (`RecTest.same`).
* **C66** (no defect). Found by seeded bugs: setting the flag too often only loses sharing, so that no theorem about results (C09 included) noticed it.
* **C67** (finding). `--eta` makes kocheck reject some programs that it accepts without: `[x] F x x --> T1. [x, y] F x y --> T2.` and `thm t : F g (x => g x) := p` for `p : T2`; with eta the first rule fires (`C67_more_refuted`). For left-linear rules this cannot happen.
* **C68** (no defect). Extends C64 to functions that return types and to symbols in patterns with functions as arguments. Not covered: right-hand sides with beta redexes (they are covered by C64), impredicative encodings (`all : (prop -> prop) -> prop`), codes of types that quantify over elements of codes (induction-recursion). The conditions that are needed for positivity and for calls are shown to be needed (`C68_positive_refuted`, `C68_type_refuted`).
* **C69** (no defect). For the other files in `examples/`, see C71.
* **C70** (minor). Texts in the log do not identify symbols: the path of the module is missing (`C70_distinct_refuted`), and a symbol may have the text of a sort (`C70_sorts_refuted`). Results of the checker do not depend on this.
* **C71** (no defect in the examples). Rules without types for all their variables, and rules with jokers, are added without any check; if they are not typed, reduction of well-typed terms may diverge (`C71_unchecked_refuted`; see also C51). `pure.dk` (higher-order encodings with quantification over codes of types) and the sudoku (recursion that is not structural) are outside of the classes of C64 and C68; they are run in the model (`TestExamples`).
* **C72** (performance, no wrong result). `RTTerm::force` reads the state of an argument back to a term without evaluating the state (reduce.rs:56-59, 81-85), and a variable is then evaluated as a new state with this term (reduce.rs:160-165). Sharing thus saves evaluation only for states that are matched by several rules, or read back after having been matched; an argument whose variable occurs twice is evaluated twice. With `both 0 0 --> 0`, evaluation of k nested `(x => both x x) (...)` allocates `4 * (2^k - 1)` cells (`C72_by_need_refuted`, proved for all k).
* **C74** `examples/bench/inf.dk` says `does_not_terminate`; this is a theorem of the model: its last definition is typable
  (`inf` and `succ inf` are convertible), but both sides of the comparison are searched for a `zero` that never comes.
* **C75** (minor). `dep2dot` prints names without quotes, so that modules in directories, or with dots in their names, yield no valid graph (`C75_directories_refuted`); it splits at exactly ` : `, whereas koweb accepts more spaces (`C75_spaces_refuted`); `trim_end_matches` removes `.dko` repeatedly (`C75_endings_refuted`).
* **C76** (defect). `line.unwrap()` in `process.rs:46` panics on lines that are not UTF-8, even in comments, and if reading fails, for example on a directory; `Error::Io` exists but is used only for opening (`C76_no_panic_refuted`). With a channel, the panic of the reading thread may hide an error in earlier commands (`C76_channel_refuted`), contrary to the comment of `run` that both ways are functionally equivalent.
* **C77** (defects). `kofmt --parse` does not print one command per line as its documentation says: `a : Type. b : a.` becomes `a : Typeb : a`, which kofmt does not parse (`C77_lines_refuted`, see also C38). It panics on errors of syntax and, with `--parse lazy`, on files that are not UTF-8 (`C77_no_panic_refuted`). When lexing, `--quiet` accepts unrecognised characters that are a panic otherwise (`C77_quiet_refuted`). If a file does not end with a dot, its last token and the first of the next file are printed as one (`C77_files_refuted`).
* **C78** (defects). kofmt panics on files whose lines end with CR LF, because CR is not a space for the lexer; kocheck accepts them, because it reads lines (`C78_crlf_refuted`). kofmt removes an unclosed comment, so that a file that kocheck rejects may become one that it accepts (`C78_comment_refuted`).
* **C79** (finding). The shortcut of `convertible` compares names of bound variables (derived `PartialEq`, kontroli/src/comb.rs:4). So with rules that do not terminate, a program may be accepted while checking a renamed one runs forever (`C79_terminates_refuted`). If both runs end, they give the same result.
* **C81** (finding). Rules with jokers, or with variables without types, are added without checking that both sides have the same type (see C13, C71); so a theorem may be accepted whose type is empty in a model of all declarations, definitions and rules (`C81_unchecked_refuted`: `[] g _ --> bot` with `g : nat -> nat`).
* **C82** (scope). "Do not refer" means that the removed commands introduce, or have rules for, symbols that the remaining program does not have at all; a rule can be necessary for a later command that does not mention its symbol (`C82_rules_refuted`).
* **C83** (scope). One exchange of neighbouring introductions; a sequence of exchanges is covered step by step, if the programs in between are accepted (with `C83_exchanged` they are not rejected). Rules cannot be exchanged with introductions (`C83_rules_refuted`, `C83_before_refuted`).
* **C84** (scope). Programs without rewrite rules. An assumption is replaced by a symbol with literally the corresponding type; symbols that compute are kept or unfolded. Abstractions without domains can be checked as terms of definitions, but not where they would be put (`C84_domains_refuted`; this is one of the defects of `inline` in C63).
* **C85** (scope). Programs without rewrite rules; both programs must elaborate, i.e. each name is introduced before it is used. With rules, a symbol may need a rule that comes later (`C85_rules_refuted`); C83 covers exchanging commands there.
* **C86** (scope). Errors of the kernel are specified by `command_fault` (C87). With threads, the claim about the first command is false (`C86_threads_refuted`).
* **C87** (scope). `no_product` and `differ` say that types are really different only for confluent rules (and, for products, without eta); otherwise they say that the type is equal to a term that is no product, and that the two types are different terms. A fault is not unique: `infers` assigns types up to conversion, and a term may have several faults; the theorem says that the reported one is there and that what precedes it is well-typed.
* **C88** (scope). The model of threads lets other threads pull commands after one has failed, until all threads have stopped (as `par_bridge` and `try_for_each` may do); so more errors are possible with threads than without. `C88_rules_refuted`: a command with two wrong rules.
* **C42**: a failed insertion replaces the type (`GCtx`) or symbol (`Symbols`) of the name.

Except for the remarks on C11 and C18, which are consequences of the positive theorems, each has a theorem `…_refuted` with
a concrete witness, and a positive theorem for what does hold.

## Tests of the model

`TestParse.v` states the unit tests and documentation tests of `dedukti-parse` as examples about the model and proves them by
computation. `TestExamples.v` contains the texts of `examples/*.dk` and computes the verdict of the modelled `kocheck` on them
(accepted, and `magic_fails.dk` rejected). Not covered: `sudoku_solve*.dk` and the larger benchmarks, too slow in the model.

## Tests of the theorems

`seeded/LOG.jsonl` lists edits of the model that imitate bugs, with the theorems that failed to prove afterwards. The
experiments were done in a copy: after an edit the dependent files were compiled one after the other, each failing proof was
replaced by `Admitted`, and finally `Print Assumptions` told which theorems rest on a failed proof.
