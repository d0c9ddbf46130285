{
 "claims": [
  {
   "property": "C01",
   "status": "proved",
   "theorems": [
    "C01_infer_modes",
    "C01_infer_modes_short",
    "C01_infer_sound",
    "C01_infer_sound_short"
   ],
   "note": "For all terms of the input language in all local contexts, and for all intermediate terms without Kind inside; has_type is the lambda-Pi calculus modulo with a liberal conversion rule, see DESIGN.md."
  },
  {
   "property": "C02",
   "status": "proved",
   "theorems": [
    "C02_check_modes",
    "C02_check_modes_short",
    "C02_check_sound",
    "C02_check_sound_short"
   ],
   "note": "As C01."
  },
  {
   "property": "C03",
   "status": "proved",
   "theorems": [
    "C03_whnf_sound"
   ],
   "note": ""
  },
  {
   "property": "C04",
   "status": "proved",
   "theorems": [
    "C04_convertible_sound"
   ],
   "note": ""
  },
  {
   "property": "C05",
   "status": "proved",
   "theorems": [
    "C05_convertible_symmetric"
   ],
   "note": ""
  },
  {
   "property": "C06",
   "status": "proved",
   "theorems": [
    "C06_whnf_agree",
    "C06_convertible_agree",
    "C06_infer_agree",
    "C06_check_agree"
   ],
   "note": "infer and check are stated for terms in which every application has arguments or a constant head, because the implementation treats an application without arguments differently from its head."
  },
  {
   "property": "C07",
   "status": "proved",
   "theorems": [
    "C07_whnf_no_panic",
    "C07_convertible_no_panic",
    "C07_infer_no_panic",
    "C07_check_no_panic",
    "C07_intro_no_panic",
    "C07_rewrite_no_panic",
    "C07_check_check_no_panic"
   ],
   "note": ""
  },
  {
   "property": "C08",
   "status": "proved",
   "theorems": [
    "C08_whnf_deterministic",
    "C08_convertible_deterministic",
    "C08_infer_deterministic",
    "C08_intro_deterministic",
    "C08_rewrite_deterministic",
    "C08_check_deterministic"
   ],
   "note": ""
  },
  {
   "property": "C09",
   "status": "proved",
   "theorems": [
    "C09_subst",
    "C09_shift",
    "C09_change_flag"
   ],
   "note": ""
  },
  {
   "property": "C10",
   "status": "proved",
   "theorems": [
    "C10_whnf_form"
   ],
   "note": ""
  },
  {
   "property": "C11",
   "status": "proved",
   "theorems": [
    "C11_match_sound",
    "C11_absent_variable"
   ],
   "note": ""
  },
  {
   "property": "C12",
   "status": "proved",
   "theorems": [
    "C12_no_eta",
    "C12_eta"
   ],
   "note": "The eta half is stated for a right-hand side that evaluates to a term other than an abstraction (otherwise bodies are compared)."
  },
  {
   "property": "C13",
   "status": "partial",
   "theorems": [
    "C13_intro_type_partial",
    "C13_intro_type_refuted",
    "C13_accepted"
   ],
   "note": "Full statement holds for declarations and definitions without type; refuted for theorems and definitions with type (C13_intro_type_refuted): intro verifies only typability of the type. C13_accepted: in terminating Church-Rosser contexts it holds once the check of the term has succeeded, too."
  },
  {
   "property": "C14",
   "status": "proved",
   "theorems": [
    "C14_rule_preserves_type"
   ],
   "note": ""
  },
  {
   "property": "C15",
   "status": "proved",
   "theorems": [
    "C15_never_computes",
    "C15_rewritable"
   ],
   "note": ""
  },
  {
   "property": "C16",
   "status": "proved",
   "theorems": [
    "C16_history",
    "C16_reintroduction",
    "C16_stable"
   ],
   "note": ""
  },
  {
   "property": "C17",
   "status": "proved",
   "theorems": [
    "C17_fresh_whnf",
    "C17_fresh_convertible",
    "C17_fresh_infer",
    "C17_fresh_intro",
    "C17_fresh_rewrite",
    "C17_fresh_check"
   ],
   "note": ""
  },
  {
   "property": "C18",
   "status": "proved",
   "theorems": [
    "C18_run",
    "C18_consume"
   ],
   "note": "For the kernel model with any oracle and any fuel, sequential or concurrent, direct or streamed. 'Verified' covers rules whose variables are all annotated and that contain no joker; the code checks no others (it only warns)."
  },
  {
   "property": "C19",
   "status": "proved",
   "theorems": [
    "C19_verdict",
    "C19_no_error",
    "C19_error",
    "C19_ends",
    "C19_progress",
    "C19_run",
    "C19_run_unique",
    "C19_consume"
   ],
   "note": "For every kernel that is a function of the query; every interleaving of pulling and checking."
  },
  {
   "property": "C20",
   "status": "proved",
   "theorems": [
    "C20_run",
    "C20_consume",
    "C20_share",
    "C20_infer",
    "C20_check"
   ],
   "note": "For every kernel; all four levels are characterised."
  },
  {
   "property": "C21",
   "status": "proved",
   "theorems": [
    "C21_stream",
    "C21_stream_unique",
    "C21_produce_consume",
    "C21_channel",
    "C21_run",
    "C21_errors",
    "C21_errors_refuted"
   ],
   "note": "For every kernel, every channel capacity and every interleaving. C21_channel gives all results that processing with a channel can have, C21_run the only one without. C21_errors_refuted: if a file name is no module path, the reported error may differ."
  },
  {
   "property": "C22",
   "status": "proved",
   "theorems": [
    "C22_first_error",
    "C22_stops",
    "C22_reported",
    "C22_files"
   ],
   "note": "Sequential processing; for concurrent processing see C19_error."
  },
  {
   "property": "C23",
   "status": "proved",
   "theorems": [
    "C23_insert",
    "C23_distinct"
   ],
   "note": ""
  },
  {
   "property": "C24",
   "status": "proved",
   "theorems": [
    "C24_get"
   ],
   "note": ""
  },
  {
   "property": "C25",
   "status": "proved",
   "theorems": [
    "C25_term_ok",
    "C25_term_structure",
    "C25_term_error",
    "C25_intro",
    "C25_intro_structure",
    "C25_rules",
    "C25_scope"
   ],
   "note": ""
  },
  {
   "property": "C26",
   "status": "proved",
   "theorems": [
    "C26_params",
    "C26_params_none"
   ],
   "note": "An introduction with neither type nor term is not covered by the equivalence (its parameters are shared but unused), see C26_params_none."
  },
  {
   "property": "C27",
   "status": "proved",
   "theorems": [
    "C27_rule",
    "C27_complete",
    "C27_error"
   ],
   "note": ""
  },
  {
   "property": "C28",
   "status": "proved",
   "theorems": [
    "C28_strict",
    "C28_lazy"
   ],
   "note": "For every scoping function, text and sequence of earlier results (including errors), neither iterator panics; the model's Panic results stand for unwrap/unreachable/assert in the code, and Fuel cannot occur."
  },
  {
   "property": "C29",
   "status": "proved",
   "theorems": [
    "C29_progress",
    "C29_ends"
   ],
   "note": "From any state of the strict parser."
  },
  {
   "property": "C30",
   "status": "partial",
   "theorems": [
    "C30_ends_refuted",
    "C30_partial"
   ],
   "note": "Refuted as stated (C30_ends_refuted): on input that ends within a command or comment the lazy iterator returns Err(ExpectedInput) forever. Proved: after finitely many results it ends or returns that same error over and over."
  },
  {
   "property": "C31",
   "status": "proved",
   "theorems": [
    "C31_strict",
    "C31_lazy",
    "C31_after_error_refuted"
   ],
   "note": "Up to the first error, for strict and lazy parser. After an error the names bound in the failed command stay in scope, so the claim fails when parsing continues after an error (C31_after_error_refuted)."
  },
  {
   "property": "C32",
   "status": "proved",
   "theorems": [
    "C32_command",
    "C32_file"
   ],
   "note": "For unscoped parsing with an empty context, i.e. from the start or after a command; together with C31 this covers scoped parsing."
  },
  {
   "property": "C33",
   "status": "proved",
   "theorems": [
    "C33_command",
    "C33_parsed"
   ],
   "note": "For all commands with valid names, and for all commands returned for any text up to the first error."
  },
  {
   "property": "C34",
   "status": "partial",
   "theorems": [
    "C34_partial",
    "C34_back_partial",
    "C34_name_refuted",
    "C34_pragma_refuted",
    "C34_order_refuted",
    "C34_source",
    "C34_tokens"
   ],
   "note": "Refuted in general: names over several lines (C34_name_refuted), input ending after a pragma (C34_pragma_refuted), order of results around errors (C34_order_refuted). Proved for texts without Error tokens and without names over several lines, in both directions. What the parser for lines accepts is characterised exactly for all texts (C34_source, C34_tokens)."
  },
  {
   "property": "C35",
   "status": "proved",
   "theorems": [
    "C35_chunks"
   ],
   "note": "Chunks are arbitrary lists of tokens; state, context, number of open comments and commands agree."
  },
  {
   "property": "C36",
   "status": "proved",
   "theorems": [
    "C36_cases",
    "C36_balanced",
    "C36_unclosed"
   ],
   "note": "Comments are specified by balanced and unclosed texts; every text after (; is one or the other (C36_cases)."
  },
  {
   "property": "C37",
   "status": "proved",
   "theorems": [
    "C37_roundtrip",
    "C37_unclosed_comment_refuted"
   ],
   "note": "Error-free means: no Error token and no unclosed comment. With an unclosed comment the claim fails (C37_unclosed_comment_refuted)."
  },
  {
   "property": "C38",
   "status": "partial",
   "theorems": [
    "C38_no_dots_refuted",
    "C38_dots_partial"
   ],
   "note": "Refuted: kofmt --parse prints no final dots (C38_no_dots_refuted). Proved: with a dot and a newline added after each command, the output parses to the same commands."
  },
  {
   "property": "C39",
   "status": "proved",
   "theorems": [
    "C39_order",
    "C39_all"
   ],
   "note": "For each file from which no cycle can be reached, and for the whole output on acyclic makefiles. Makefile semantics is specified on the text (entry, depends)."
  },
  {
   "property": "C40",
   "status": "partial",
   "theorems": [
    "C40_cycle_refuted",
    "C40_partial"
   ],
   "note": "Refuted for cyclic makefiles (C40_cycle_refuted, the code overflows the stack). Proved: the computation ends if and only if no cycle can be reached from the file."
  },
  {
   "property": "C41",
   "status": "proved",
   "theorems": [
    "C41_module_path",
    "C41_relative",
    "C41_absolute",
    "C41_leading_dot",
    "C41_parent",
    "C41_dash"
   ],
   "note": "Complete characterisation of module_path for ASCII paths (C41_module_path); std::path is modelled by its documented behaviour on Unix."
  },
  {
   "property": "C42",
   "status": "partial",
   "theorems": [
    "C42_symbols_partial",
    "C42_symbols_refuted",
    "C42_gctx_partial",
    "C42_gctx_refuted",
    "C42_rule"
   ],
   "note": "Refuted for both tables: a failed insertion replaces the symbol or type of the name; everything else is left unchanged (the partial theorems). Rejected rules leave the context unchanged."
  },
  {
   "property": "C43",
   "status": "proved",
   "theorems": [
    "C43_kocheck"
   ],
   "note": "Composition of parsing (C34_source), scoping, sharing and C18, for every junk length, oracle and fuel. Well-typed means verified_all of C18 (rules with jokers or unannotated variables are not checked by the code)."
  },
  {
   "property": "C44",
   "status": "proved",
   "theorems": [
    "C44_infer",
    "C44_share"
   ],
   "note": "For every kernel."
  },
  {
   "property": "C45",
   "status": "proved",
   "theorems": [
    "C45_single",
    "C45_multiple",
    "C45_infer",
    "C45_stages",
    "C45_unknown_refuted",
    "C45_zip_refuted"
   ],
   "note": "check_multiple does nothing and reports nothing if the program is not listed (C45_unknown_refuted), and ignores dependencies without an address (C45_zip_refuted); the theorem has the former as an alternative."
  },
  {
   "property": "C46",
   "status": "proved",
   "theorems": [
    "C46_agree",
    "C46_pragma_refuted"
   ],
   "note": "C46_pragma_refuted: texts that end with a pragma are accepted by kocheck only."
  },
  {
   "property": "C47",
   "status": "proved",
   "theorems": [
    "C47_not_convertible",
    "C47_orthogonal",
    "C47_transitive",
    "C47_overlap_refuted",
    "C47_eta_refuted"
   ],
   "note": "C47_overlap_refuted, C47_eta_refuted: false without the Church-Rosser property, or with eta and rules with arguments."
  },
  {
   "property": "C48",
   "status": "proved",
   "theorems": [
    "C48_head_normal",
    "C48_product",
    "C48_sort"
   ],
   "note": ""
  },
  {
   "property": "C49",
   "status": "proved",
   "theorems": [
    "C49_infer_complete",
    "C49_check_complete",
    "C49_check_rejects",
    "C49_sort_refuted"
   ],
   "note": "C49_sort_refuted: the exceptions for sorts are needed."
  },
  {
   "property": "C50",
   "status": "proved",
   "theorems": [
    "C50_lex",
    "C50_only"
   ],
   "note": "Patterns and the longest-match rule are specified in SpecLex with character sets listed explicitly. The code generated by logos is modelled by its documented meaning; how far an error token extends where no pattern matches is left open."
  },
  {
   "property": "C51",
   "status": "proved",
   "theorems": [
    "C51_whnf",
    "C51_products",
    "C51_program",
    "C51_joker_refuted"
   ],
   "note": "C51_joker_refuted: rules with jokers (and rules with unannotated variables) are accepted unchecked. Injectivity of products is a hypothesis; C51_products derives it for orthogonal rules without eta."
  },
  {
   "property": "C52",
   "status": "proved",
   "theorems": [
    "C52_sorted",
    "C52_program"
   ],
   "note": "That the types of symbols are types is a hypothesis also for programs: a definition with a given type needs only a typable one (see ver_define)."
  },
  {
   "property": "C53",
   "status": "proved",
   "theorems": [
    "C53_unique",
    "C53_whnf",
    "C53_program"
   ],
   "note": ""
  },
  {
   "property": "C54",
   "status": "proved",
   "theorems": [
    "C54_whnf_returns",
    "C54_whnf_reduces",
    "C54_loop_refuted"
   ],
   "note": "C54_loop_refuted: without strong normalisation evaluation may run forever. Rules that are not left-linear are outside the theorem."
  },
  {
   "property": "C55",
   "status": "proved",
   "theorems": [
    "C55_convertible_returns",
    "C55_convertible_decides",
    "C55_eta_refuted"
   ],
   "note": "C55_eta_refuted: with eta and rules with arguments, comparison may run forever although both terms are strongly normalising."
  },
  {
   "property": "C56",
   "status": "proved",
   "theorems": [
    "C56_infer_returns",
    "C56_check_returns",
    "C56_command_returns",
    "C56_check_decides",
    "C56_loop_refuted"
   ],
   "note": "Termination of infer, check and infer_check for all terms, given that well-typed terms are strongly normalising (and the further conditions of SpecTotal.terminating, all established for vec_gc). Domain-free judgement well_typed in SpecDomain."
  },
  {
   "property": "C57",
   "status": "proved",
   "theorems": [
    "C57_program_returns",
    "C57_program_types",
    "C57_parallel_refuted"
   ],
   "note": "Sequential processing returns on programs whose accepted prefixes are left-linear, Church-Rosser and normalising, and the contexts of accepted programs are well-typed. C57_parallel_refuted: concurrent processing can get stuck where sequential processing reports an error."
  },
  {
   "property": "C58",
   "status": "proved",
   "theorems": [
    "C58_infer_decides",
    "C58_check_decides",
    "C58_command_decides",
    "C58_program_decides"
   ],
   "note": "infer and check return a type / succeed exactly for the terms that are typable by the textbook rules (SpecDerive.v), in contexts that are terminating, Church-Rosser and well-typed. Lifted to commands and whole programs. The requirement that the terms have no empty applications (proper_l) holds for all parsed terms."
  },
  {
   "property": "C59",
   "status": "proved",
   "theorems": [
    "C59_sound",
    "C59_kocheck",
    "C59_no_rules",
    "C59_text",
    "C59_rules_refuted"
   ],
   "note": "The loop of kontroli/src/lib.rs:30-79 and benches/bench.rs. C59_rules_refuted shows that ill-typed rules are accepted, as the documentation says."
  },
  {
   "property": "C60",
   "status": "proved",
   "theorems": [
    "C60_lex",
    "C60_comment",
    "C60_show"
   ],
   "note": "Callbacks of the lexer with byte offsets and panics; equal to the byte-wise model on well-formed UTF-8."
  },
  {
   "property": "C61",
   "status": "proved",
   "theorems": [
    "C61_normalising",
    "C61_definitional",
    "C61_ok",
    "C61_program_decides"
   ],
   "note": "Programs without rewrite rules, with and without eta, sequential processing."
  },
  {
   "property": "C62",
   "status": "proved",
   "theorems": [
    "C62_decides",
    "C62_accepts",
    "C62_web"
   ],
   "note": "from texts to results; no assumption except that there are no rewrite rules; sequential kocheck and koweb have exactly one result, concurrent kocheck accepts the same programs"
  },
  {
   "property": "C63",
   "status": "proved",
   "theorems": [
    "C63_count",
    "C63_inline",
    "C63_pipeline",
    "C63_count_rules_refuted",
    "C63_count_module_refuted",
    "C63_typing_refuted",
    "C63_error_refuted"
   ],
   "note": "Counting and inlining proved for all texts; the claims of the README about counts of 0 and (implicitly) about typing are refuted with witness texts."
  },
  {
   "property": "C64",
   "status": "proved",
   "theorems": [
    "C64_normalising",
    "C64_built",
    "C64_ok",
    "C64_program_decides",
    "C64_guard_refuted",
    "C64_first_order_refuted",
    "C64_test"
   ],
   "note": "Normalisation and Church-Rosser from syntactic conditions on rules; processing programs that meet them is decided. C64_test makes the conditions computable. Two refuted theorems show that the conditions are needed."
  },
  {
   "property": "C65",
   "status": "proved",
   "theorems": [
    "C65_decides",
    "C65_accepts",
    "C65_web",
    "C65_test"
   ],
   "note": "Texts of programs with structurally recursive functions: termination, no panic and equivalence with declarative typability, for kocheck (sequential, threads, channel) and koweb; C65_test shows the assumption for given texts by computation. No eta-conversion, and rules as in C64."
  },
  {
   "property": "C66",
   "status": "proved",
   "theorems": [
    "C66_flag",
    "C66_no_change",
    "C66_kept"
   ],
   "note": "Exact characterisation of the flag, and of what is kept. Memory of copies is represented by the terms themselves: a kept cell is the same term with the same kinds of references below it."
  },
  {
   "property": "C67",
   "status": "proved",
   "theorems": [
    "C67_compares",
    "C67_expands",
    "C67_whnf",
    "C67_convertible",
    "C67_infer",
    "C67_check",
    "C67_more",
    "C67_typable",
    "C67_more_refuted"
   ],
   "note": "C67_more_refuted: with non-linear rules, --eta makes kocheck reject programs that are accepted without."
  },
  {
   "property": "C68",
   "status": "proved",
   "theorems": [
    "C68_normalising",
    "C68_larger",
    "C68_built",
    "C68_ok",
    "C68_program_decides",
    "C68_positive_refuted",
    "C68_type_refuted",
    "C68_test"
   ],
   "note": "strong normalisation and decidability for recursive functions over (strictly positive) inductive types, also into types; conditions shown to be needed by two refutations"
  },
  {
   "property": "C69",
   "status": "proved",
   "theorems": [
    "C69_decides",
    "C69_accepts",
    "C69_web",
    "C69_test"
   ],
   "note": "from texts to the result of kocheck and koweb; covers examples/fo_imp.dk of the repository"
  },
  {
   "property": "C70",
   "status": "proved",
   "theorems": [
    "C70_term",
    "C70_long_term",
    "C70_pattern",
    "C70_rule",
    "C70_context",
    "C70_context_types",
    "C70_event",
    "C70_names",
    "C70_distinct_refuted",
    "C70_sorts_refuted"
   ],
   "note": "Closed. Display of events, rules, patterns, terms and local contexts; two refutations show which texts coincide."
  },
  {
   "property": "C71",
   "status": "proved",
   "theorems": [
    "C71_church_rosser",
    "C71_convertible",
    "C71_more",
    "C71_examples",
    "C71_wrong",
    "C71_unchecked_refuted"
   ],
   "note": "Church-Rosser and decision theorems for overlapping, unannotated and joker rules; the example files of the repository are decided."
  },
  {
   "property": "C72",
   "status": "proved",
   "theorems": [
    "C72_kept",
    "C72_once",
    "C72_busy",
    "C72_by_need_refuted"
   ],
   "note": "Cells of the heap only change from not evaluated to evaluated; requests for evaluated cells return at once. Sharing of evaluation between occurrences of a variable is refuted, with an exponential family of terms."
  },
  {
   "property": "C73",
   "status": "proved",
   "theorems": [
    "C73_accepted",
    "C73_size"
   ],
   "note": "proved for all numbers of rounds; the generators run forever, so the model is the text after n rounds"
  },
  {
   "property": "C74",
   "status": "proved",
   "theorems": [
    "C74_diverges",
    "C74_never_accepted",
    "C74_prefix",
    "C74_typable"
   ],
   "note": "eta off; with eta the argument of reduction in MainInf would need confluence with eta for rules with arguments. The texts are those of the repository."
  },
  {
   "property": "C75",
   "status": "proved",
   "theorems": [
    "C75_output",
    "C75_edges",
    "C75_graph",
    "C75_makefile",
    "C75_same_as_koweb",
    "C75_spaces_refuted",
    "C75_directories_refuted",
    "C75_endings_refuted"
   ],
   "note": "for all texts: the output is exactly one edge per dependency of rule lines; DOT syntax for plain names; agreement with the dependencies read by koweb for the format of dkdep; three counterexamples (directories, spaces, repeated endings)"
  },
  {
   "property": "C76",
   "status": "proved",
   "theorems": [
    "C76_utf8",
    "C76_same",
    "C76_accepted",
    "C76_sound",
    "C76_cases",
    "C76_cut",
    "C76_panics",
    "C76_panics_only",
    "C76_no_panic_refuted",
    "C76_channel_refuted"
   ],
   "note": "C76_utf8: the model's check of bytes is Unicode's; C76_same: on readable files the program on bytes is the program on texts; C76_accepted: acceptance; C76_sound: soundness carried over; C76_cases, C76_cut, C76_panics, C76_panics_only: exactly when and where it panics; refuted: that it never panics, and that the channel makes no difference."
  },
  {
   "property": "C77",
   "status": "proved",
   "theorems": [
    "C77_unique",
    "C77_files",
    "C77_first",
    "C77_lex",
    "C77_strict",
    "C77_lazy",
    "C77_error",
    "C77_io",
    "C77_cut",
    "C77_io_only",
    "C77_again",
    "C77_quiet",
    "C77_quiet_parse",
    "C77_quiet_lex",
    "C77_no_panic_refuted",
    "C77_quiet_refuted",
    "C77_files_refuted",
    "C77_lines_refuted"
   ],
   "note": "ModelKofmt models the whole program kofmt on files of bytes; SpecKofmt states its output per file. Files that cannot be read line by line give a panic instead of an error (refuted)."
  },
  {
   "property": "C78",
   "status": "proved",
   "theorems": [
    "C78_accepted",
    "C78_verdict",
    "C78_layout",
    "C78_web",
    "C78_comment_refuted",
    "C78_crlf_refuted"
   ],
   "note": "For all kernels, options and schedules. Without the conditions on comments and CR LF the claim is false: C78_comment_refuted, C78_crlf_refuted."
  },
  {
   "property": "C79",
   "status": "proved",
   "theorems": [
    "C79_elaborates",
    "C79_verdict",
    "C79_web",
    "C79_accepted",
    "C79_simple",
    "C79_infer",
    "C79_terminates_refuted"
   ],
   "note": "Same verdict if both runs end; which runs end may depend on names (C79_terminates_refuted), because terms are compared with their names before they are reduced. Without rules, or without inference, the same programs are accepted."
  },
  {
   "property": "C80",
   "status": "proved",
   "theorems": [
    "C80_elaborates",
    "C80_verdict",
    "C80_web",
    "C80_accepted",
    "C80_simple",
    "C80_infer",
    "C80_same",
    "C80_merge_refuted"
   ],
   "note": "Same verdict if both runs end, and errors carry the new names; names that differ must stay different (C80_merge_refuted)."
  },
  {
   "property": "C81",
   "status": "proved",
   "theorems": [
    "C81_sound",
    "C81_rules",
    "C81_web",
    "C81_typing",
    "C81_extends",
    "C81_consistent",
    "C81_avoids",
    "C81_peirce",
    "C81_unchecked_refuted"
   ],
   "note": "soundness for programs without rules (also with eta) and for structurally recursive rules; consistency, independence of Peirce's law; refuted for unchecked rules"
  },
  {
   "property": "C82",
   "status": "proved",
   "theorems": [
    "C82_removed",
    "C82_simple",
    "C82_rejected",
    "C82_web",
    "C82_rules_refuted"
   ],
   "note": "The remaining commands and the removed ones are given as shared commands (symbols as numbers); Fuel stands for runs that do not end within the fuel of the model."
  },
  {
   "property": "C83",
   "status": "proved",
   "theorems": [
    "C83_exchanged",
    "C83_simple",
    "C83_web",
    "C83_rules_refuted",
    "C83_before_refuted"
   ],
   "note": "C83_exchanged and C83_web for all programs, C83_simple with exact acceptance without rewrite rules. The exchange of rules and introductions is refuted in both directions (C83_rules_refuted, C83_before_refuted)."
  },
  {
   "property": "C84",
   "status": "proved",
   "theorems": [
    "C84_unfold",
    "C84_instance",
    "C84_web",
    "C84_domains_refuted"
   ],
   "note": "Programs without rewrite rules; assumptions are replaced by symbols whose types literally correspond. C84_domains_refuted: terms without domains cannot be put in place of symbols."
  },
  {
   "property": "C85",
   "status": "proved",
   "theorems": [
    "C85_reordered",
    "C85_accepted",
    "C85_web",
    "C85_rules_refuted"
   ],
   "note": "Programs without rewrite rules, in any order in which all names can be resolved, possibly in other files and with other names. C85_rules_refuted: with rewrite rules the order matters."
  },
  {
   "property": "C86",
   "status": "proved",
   "theorems": [
    "C86_kocheck",
    "C86_web",
    "C86_decides",
    "C86_unique",
    "C86_files",
    "C86_threads_refuted"
   ],
   "note": "Without threads, for files that parse. C86_files holds for all options. C86_threads_refuted: with threads an error of a later command may be reported."
  },
  {
   "property": "C87",
   "status": "proved",
   "theorems": [
    "C87_infer",
    "C87_check",
    "C87_command",
    "C87_untypable",
    "C87_wrong_type",
    "C87_closed",
    "C87_program",
    "C87_web",
    "C87_threads_refuted",
    "C87_missing_refuted"
   ],
   "note": "C87_untypable and C87_wrong_type: confluent rules without eta. C87_program and C87_web: without threads, for files that parse. C87_missing_refuted: the other errors do not exclude a type. C87_threads_refuted: with threads, a symbol without type may be reported."
  },
  {
   "property": "C88",
   "status": "proved",
   "theorems": [
    "C88_run",
    "C88_consume",
    "C88_channel",
    "C88_kocheck",
    "C88_later",
    "C88_rules_refuted"
   ],
   "note": "C88_run, C88_consume, C88_channel, C88_kocheck: commands without rules. C88_later: also with rules. C88_rules_refuted: with rules, an error reported without threads may be impossible with threads."
  }
 ]
}