# Formal model of redscript in Rocq: design

This directory contains a machine-checked model of parts of jac3km4/redscript
(sources in `/repo`, read as text only) and proofs of the properties listed in
`properties.jsonl`.

## Method

* The model is a set of total Gallina functions, one per Rust function, in
  `rocq/theories/*.v`.  Every definition cites the file and lines it models and
  says where it simplifies.
* `&mut` arguments become returned values, `Result`/`Option` stay data, a panic
  is an explicit error value, loops become structural recursion, folds, or fuel
  with an explicit out-of-fuel value excluded by the theorem statement.
* Integers are unbounded (`Z`/`N`) with explicit wrapping wherever the code can
  wrap.  The release profile in `/repo/Cargo.toml` does not enable overflow
  checks, so `+`/`as` wrap.
* Files come in three kinds: model files (no proofs), `*Facts.v` (lemmas), and
  `P_*.v` (property theorems, `Print Assumptions`, and an `Example` showing that
  a concrete case meets the hypotheses).
* Where the English property is false of the faithful model, the file proves a
  theorem with suffix `_refuted` with a concrete witness, next to the strongest
  true variant, which carries the suffix `_partial` if it is weaker than the
  English claim.

## Plan per property

| id | model | proof |
|----|-------|-------|
| C01 | `Bytes.v`, `Bytecode.v`: byte parsers, instruction codec | round-trip law per operand codec, then case analysis over instructions |
| C02 | `Code` codec with the size-driven read loop | induction on the instruction list, invariant on remaining size |
| C03 | same | inversion of a successful decode |
| C04 | `Definitions.v` | round-trip law composed from field codecs; flag algebra |
| C05 | `Bundle.v`: load and save over a byte list with seek | composition of C04, layout lemmas, C08 |
| C06 | same | lemmas relating `sub` ranges of the output to parts |
| C07 | `Strings` pool | invariant over any history of `add` |
| C08 | dedup map and buffer | invariant of the fold over all strings |
| C09 | `load` | magic part proved; checksum part refuted by witness (load never reads the checksums) |
| C10 | `TypeName` tree, `repr`, `from_repr` | structural induction |
| C11 | signature builder | counterexample (no separators), plus the strongest injectivity that holds |
| C12 | `CodeCursor`, `CodeIter` | prefix-sum invariant |
| C13 | `Location::relative`, `Offset::absolute` | modular arithmetic |
| C14 | `into_code`, `resolve_labels` | induction on the stream, prefix sums |
| C15 | the whole `assemble` function as a structural recursion | label-counting invariant; counterexample for empty switch tails |
| C16 | same | induction with the exit label as parameter |
| C17 | a small-step machine for the control-flow instructions with opaque expression effects | simulation by induction on source execution |
| C18 | `Decompiler.v`, `Assembler.v` | `RecoverSpec.v` says which source a typed statement is shown as and which normal form a body has; induction on the shape of assembled code (`RecoverFacts.v`, `RecoverFlow.v`); counterexamples outside of the fragment |
| C19 | `Printer.v` (to bytes), `Parser.v` (the expression grammar as parsing functions) | the text of every expression of a fragment is read as `denoted` says (induction, with the operator that waits in front of the text); operator trees are read back exactly if nothing is regrouped; counterexamples |
| C20, C21 | type identifiers over a class table with base pointers | declarative relation, soundness and completeness; induction on acyclicity rank |
| C22 | overload resolution | list induction |
| C23 | class chain lookup | induction on chain |
| C24 | `cleanup_pool` on a table of definitions | sets, stable sort, permutation, order invariant |
| C25 | wrap registration, proxy construction, final swap, call semantics | induction on the number of wrappers |
| C26 | diagnostics list | stable partition facts |
| C27 | `cte` evaluator | structural induction against a boolean semantics |
| C28, C29, C30 | desugaring of a statement language with effect traces | induction; counterexamples for hoisting |
| C31, C32, C33 | diagnostics as structural recursions, big-step execution relation | induction on execution |
| C34 | source map over byte lists | prefix/newline counting |
| C35 | file-system state machine for scc with crash points | invariant by induction over histories; crash counterexample |
| C36 | 16-byte codec | round trip |
| C37 | buffer model with explicit bounds | case analysis; size-0 refuted |
| C38, C39 | symbol map, module paths | induction |
| C40 | type index table | invariant over histories |
| C41 | `merge_declarations` | list induction |
| C42 | bit-level flag words | `N.testbit` algebra |
| C43 | hint search | list induction |
| C44 | `Parser.v` | every rule takes from its input; only one rule aborts |
| C45 | `Printer.v`, `Parser.v` | induction on the characters |
| C46 | `Decompiler.v` | `TermSpec.v` says which code leads ahead; by measure on the position, more fuel than instructions is never used up (`TermFacts.v`); compiled code leads ahead by induction over the assembler (`AheadFacts.v`); two counterexamples |
| C47 | `TypeCheck.v`, `Scope.v` | `WellTypedSpec.v` states the typing rules over the checked tree without the checker; by induction on fuel, the checked tree obeys them in the last state (`WellTypedFacts.v`: states only grow; `WellTypedSound.v`: each construct); three counterexamples for rules that the checker leaves out |
| C48 | `Unit.v` (with `Wrappers.v`, `Symbols.v`, `TypeCheck.v`, `Desugar.v`, `Assembler.v`, `Cleanup.v`) | `UnitSpec.v` says which definitions modules name and what may become of each (`frame`); an invariant over the unit's state is kept by every step, in the order of compile_modules (`UnitSteps.v`: rules for steps, `UnitFacts.v`: the steps); the exchange of proxies and the ordering of classes (C24) come last |
| C49 | `Unit.v`, `Symbols.v` | `DisabledSpec.v` removes what is disabled from modules (`strip`); the two runs of the unit are related step by step: same state, results that differ only in the members of classes not yet defined. With C27, which says when conditions hold |
| C50 | `Unit.v`, `Wrappers.v` | The orders are parameters of the model (`env`). False in general: proxies are numbered in the order of a hash map (`C50_reproducible_refuted`). True of scripts that wrap no method: no step but @wrapMethod adds to the maps, so there is nothing to order. Missing: the order in which members of an imported module are walked is the same in both runs |
| C51 | `Unit.v` | `EffectSpec.v` says for each kind of declaration what the definition in the bundle is (`takes_effect`): names, flags bit by bit, types by the names they stand for (C40), the line a function is on, defaults by their text (`default_text`), code by checking the body in its scope (`scope_is`), desugaring, the two passes with fatal diagnostics and assembling on pools that hold all declarations. `EffectBare.v` shows that the scope of a body holds nothing but its parameters. The unit is followed in order: places are given out (`EffectDeclare.v`), definitions filled in (`EffectDefine.v`), defaults and code added (`EffectFinish.v`); each step keeps what is done and what is pending apart. A function replaced twice would be reported, hence indices are distinct; the warnings that are allowed (`harmless`) leave out the two that say that a declaration is dropped. With C15 and C17, which say what the code does |
| C52 | `Unit.v` | `RuleSpec.v` states the rules for each kind of declaration (`lawful`) and when two declarations are about the same method (`same_method`), without referring to the unit. `RuleFacts.v` follows the unit: a report of a fatal error ends up in the diagnostics, so in a compilation without fatal diagnostics no check failed at any slot (`function_rules`, `field_rules`, `class_rules`); the place of each enabled declaration is related to the bundle (`placing`). Conflicts between two additions or replacements follow from the order in which places are given out. A method replaced twice is reported, but not a function replaced twice with @replaceGlobal, nor a field added twice; for other duplicates see `C52_duplicates_refuted`. |
| C53 | `Grammar.v` | every rule of the grammar takes at least so much of its input (`GrammarFacts.v`: `takes`), so fuel of the length of the text is enough; only the rule for escapes aborts (`clean`) |
| C54 | `Printer.v`, `Grammar.v` | `StatementSpec.v` says when two bodies say the same (`same_statement`) and which bodies are covered (`body_ok`: expressions that C19 covers, no `goto`, no variable called like a statement, no block without a head, what a case compares starts with a word or a literal). By induction on the statement, what is printed is what each rule of the grammar takes, up to the `;` (`StatementFacts.v`). False in general, see below |
| C55 | `TypeCheck.v`, `Scope.v`, `Desugar.v`, `Assembler.v` | `LexicalSpec.v` lists what a body does to names, in the order of the text (`events`: use, declaration, start and end of a block; the same function for source code and checked code), and says by a stack of blocks what each name has to be (`lexical`) and what a declaration makes (`variables`). `LexicalFacts.v` follows the checker; `OwnFacts.v` follows desugaring and code generation, which name no variable but those of the checked body and the ones they make. The mode is that of the compiler (not permissive). |
| C56 | `Dump.v`, `Grammar.v` | `DumpSpec.v` says what a declaration says of a definition (`describes`) and which definitions are covered (`readable`), without speaking of texts; each kind of text is one piece of a row of pieces (`DumpFacts.v`: `piece`, `pieces_read`), and what is written is such a row (`DumpWritten.v`); partial, as eight kinds of definitions are not read back |
| C57 | `Refs.v` (scc/lib/src/api.rs 86-170), `Unit.v`, `Cleanup.v`, `SourceMap.v` | `RefSpec.v` says what the caller should be told about each declaration (kind, name, class, native or not, position), from the source only except for the names of classes that `@addField` finds in scope; `EffectNoted.v` and `RefFacts.v` follow the references through the second pass (only `define_function`, `define_field`, `define_class` and `define_enum` add any), the description of the result is the one of C51, and `CleanupDone.v` gives the map by which classes move; path and line follow from C34. Hypotheses are those of C51, and that definition 0 of the bundle is neither class nor function (it stands for none: `reserved`) |
| C58 | `DumpFiles.v` (hash maps are association lists walked in any order) | `DumpFilesSpec.v` says which definitions belong into which file (`belongs`, `orphan`), where they start (`starts_at`) and which paths stay in the directory (`tame`); the index is one entry per file with all functions from it (`DumpFilesFacts.v`); what is written reads back by C56; partial, as files with the same path, or called `orphans.script`, replace each other, and paths of a bundle can leave the directory |
| C59 | `Display.v`, `SourceMap.v`, `Unit.v` and all it calls | `PlaceSpec.v`: all places in a module have a property `P`; for any `P`, every step of type checking, desugaring, the checks, assembly, declaration and definition (`PlaceCheck.v`, `PlaceBody.v`, `PlaceFacts.v`) reports only at places with `P`, the assembler also at `Span::ZERO` (the code of proxies, and one error of its own); display is computed exactly from C34 for places between characters; that the parser gives such places is a hypothesis here and proved in C63 |
| C60 | `Args.v`: fix_args, and how Windows splits a command line (the environment) | `recoverable` (P_Args.v) follows which quotes Windows takes for text; by induction over the arguments the pieces that Windows makes are put together again; partial, as two directories in a row and repeated spaces are not recovered (refuted) |
| C61 | the checks of Diagnostics.v and the generation of code in Assembler.v | `stays`, `part_taken`, `operand_stays`, `falls_through` (TempSpec.v) say what a temporary is, in expressions and in code; the checks are compared with them by the equivalence of the visitor and `occurs` (P_Checks.v); by induction over expressions no instruction of the code takes a part of anything but an operand that stays. The code is that with labels; C14 relates it to the final code |
| C62 | `Failure.v`: ErrorReport of scc/lib; paths (components, file name) and orders of hash tables are arguments | `place`, `mod_of`, `at_fault`, `hint_for`, `tells` (P_Failure.v); by induction over the errors, with C34 for places and C43 for hints, then C26 and C59 for whole compilations; partial, as hints for syntax errors and failed conditions are never shown (refuted) |
| C63 | `Positions.v` (the grammar with positions; rules without positions are those of `Parser.v` and `Grammar.v`) | `PositionSpec.v`: `located` says of every kind of part what its text is and what it is inside of; `PositionErase.v`: taking the places away gives the parser of C52 and C53; `PositionFacts.v`: every rule goes from a place between characters to another and what it gives is located between them, where only the contents of strings pass through the middle of characters; sources are UTF-8 as far as a byte below 128 is a character of its own (`readable`); partial, as the place of an expression with prefix operators or parentheses at its ends is not that of all of its text (refuted); places of syntax errors (rust-peg's furthest failure) are not modelled |
| C64 | `Desugar.v` (`on_interpolated`) with the meaning of bodies in `Semantics.v` | `InterpolationSpec.v`: `interpolate` evaluates the parts from left to right and writes each before the next; `texts` is what is assumed of the runtime (text constants, references to strings, conversions and the concatenation have no effect and give these texts); by induction over the parts, the value of the nested calls reads as the text so far, and for the reading `InterpolatedSpec.v` (texts as in C70, gaps as in C71), `C64_read_as_written` |
| C65 | `Sources.v` (file trees, walking them, extensions, the filter, reading) | `SourcesSpec.v`: `lies` follows names in a tree, `wanted` says by the form of the name which are scripts and which are excluded, `offers` says it of an argument; exactness by induction over the tree; `below` is injective on trees whose names have no separator, so nothing is loaded twice if no path is inside of another; partial, as directories called like scripts and overlapping paths break the full statement (both refuted) |
| C66 | `rnumber`, `rconstant` (`Parser.v`), `adjust_constant`, `float_of_int`, `f64_of_f32` (`TypeCheck.v`), `emit_constant` (`Assembler.v`) | `LiteralSpec.v`: `decimal` is the value of digits, `number_of` the real number (or signed zero, infinity, NaN) of a constant by Flocq's IEEE 754 formats, `nearest_float` is Flocq's rounding to binary32; the conversions on bit patterns are proved equal to these for every sign, exponent and mantissa (`LiteralFacts.v`), reading by induction over the digits; how floating-point texts are read is not modelled (`float_text`); which type a place gives to a literal: `C66_literals_take_the_type_that_is_given` (initial, assigned and returned values), `C66_second_branch_takes_the_type_of_the_first` |
| C67 | `Cli.v` (`compile_command`, `lint_command`) on top of `Bundle.v`, `Sources.v`, `Positions.v`, `Unit.v`, `Report.v` | `compiles` says what it means that the scripts compile: the cache loads, the files are found, parsing and compiling succeed with only warnings. Written implies compiles (with the log and the round trip of C05), compiles implies written (the places of C63 make every warning displayable), otherwise untouched; lint by cases. Loaded files are UTF-8, hence lists of characters, so C63 applies to them. That every function which is not native names a source, as the format needs, is proved (an induction over the compilation, `FunctionFacts.v`), not assumed. `C67_functions_have_sources`, `C67_output_is_what_was_compiled`, `C67_written_if_compiled`, `C67_untouched_otherwise`, `C67_lint_logs_the_same` |
| C68 | `SccCompile.v` (`compile_with`, `sign`, `is_signed`, `scc_command`) beside `Cli.v` | scc runs the compiler without the diagnostic passes, so `compile_with` takes them as an argument (with the default ones it is `compile`). `SccCompileSpec.v`: `same_result` compares two compilations. The states with and without passes are equal but for the diagnostics, by induction over the bodies (`SccCompileFacts.v`); then as for C67. That loaded names are found in the index is an invariant of decoding. `C68_passes_change_nothing`, `C68_agree`, `C68_game_builds_what_the_tool_builds`, `C68_difference_is_reported`, `C68_success_means_written`, `C68_marked_is_refused`, `C68_output_is_refused` |
| C69 | `Bytes.v`, `Bytecode.v`, `Definitions.v`, `Bundle.v` (all decoders) | `LoadSpec.v` says by positions in the file which bytes name a kind or a visibility (`odd_kind`). Every decoder is shown to have no other panic and to end (`LoadFacts.v`); the positions read are followed from the header to the definitions. Not modelled: running out of memory when a stated size is large. `C69_load_ends`, `C69_abort_has_a_cause_partial`, `C69_answer_without_cause_partial`, `C69_cause_is_never_loaded` |
| C70 | `Parser.v` (`rescaped_char`, `rstring`, `rliteral_type`, `rconstant`), `TypeCheck.v`, `Assembler.v` (`emit_constant`), `Bundle.v` (`st_add`) | `TextLiteralSpec.v` says how a text is spelled, with UTF-8 by arithmetic. The reader is shown equivalent to it by induction on the items (`TextLiteralFacts.v`), the compiled constant through the stability of the tables (C07). That `\u{...}` with a number that is no character aborts instead of being refused is the refutation of C44; such a text spells nothing here. `C70_texts_are_read_as_spelled`, `C70_one_meaning`, `C70_every_text_can_be_spelled`, `C70_constants_are_read_as_spelled`, `C70_nothing_else_is_a_text`, `C70_compiled_as_written` |
| C71 | `Parser.v` (`comment_rest`, `line_rest`, `blank_step`, `blanks`, `rblank`, `rident`, `rkeyword`) | `GapSpec.v` defines comments and gaps as inductive predicates and names by ranges of characters; the readers are shown equivalent to them by induction on the derivation and on the length (`GapFacts.v`). It is about the rule `_` and whatever follows it, not about a whole file, where the positions of all parts change too (C63). `C71_gaps_make_no_difference`, `C71_only_gaps_are_skipped`, `C71_comments_end_once`, `C71_names_are_read_as_written`, `C71_keywords_are_whole_words`, `C71_gaps_end_names`, `C71_files_may_start_with_comments` |
| C72 | `Parser.v` (`rtype`, `rsep`, `rcomma`, `rident`), `Ast.v` (`tn_new`) | `TypeTextSpec.v` gives the ways to write a type and a list of types as mutual inductive predicates; by their induction what is written is read (with a bound of the length on the recursion), by induction on the bound what is read is written so. `C72_types_are_read_as_written`, `C72_nothing_else_is_a_type`, `C72_one_meaning` |
| C73 | `Grammar.v` (`rqualifier`, `rqualifiers`, `rlet_type`, `rparam`), `Parser.v` | `ParamTextSpec.v` has the words for qualifiers and how a parameter is written; by induction over the qualifiers both directions, with C71 for words and C72 for the type. The second direction is for a text that does not start with a blank or comment, as where the grammar reads parameters. `C73_parameters_are_read_as_written`, `C73_nothing_else_is_a_parameter` |
| C74 | `Grammar.v` (`rimport_head`, `rimport`, `rmodule_path`), `Parser.v` | `ImportTextSpec.v` has how names with marks between them and the three forms of imports are written; by induction over the names, with C71 for words and gaps. What follows must not go on with the name or, after a gap, with a dot (`ends_import`). Imports without annotations and with at least one name in the path; positions are not modelled. `C74_imports_are_read_as_written`, `C74_module_names_are_read_as_written`, `C74_one_meaning` |
| C75 | `Grammar.v` (`rdecl`, `renum_member`, `renum`), `Parser.v` (`rnumber`) | `EnumTextSpec.v` has how integers, members and enums are written; by induction over the members, with C66 for the values, C71 for words and gaps and C73's lemma for the qualifiers. Enums without annotations and with at least one member; positions are not modelled. The grammar takes no blank before a comma between members (`C75_blank_before_comma`), so the specification has none. `C75_enums_are_read_as_written`, `C75_one_meaning` |
| C76 | `Grammar.v` (`rdecl`, `rfield`, `rfunction`, `rfunc_type`) | `DeclTextSpec.v` has how declarations, fields without a value, parameters in parentheses and functions without a body are written; by induction over the parameters, with C71, C72 and C73. Declarations without annotations; positions are not modelled. `C76_fields_are_read_as_written`, `C76_signatures_are_read_as_written`, `C76_one_meaning` |

## Trusted base

* Coq 8.16.1 kernel.  `Print Assumptions` beneath each theorem lists axioms; the
  result is "Closed under the global context" everywhere except in `P_Literal.v` (C66):
  its theorems about floating-point values mention real numbers and use the axioms of the
  standard library's reals, `ClassicalDedekindReals.sig_not_dec`,
  `ClassicalDedekindReals.sig_forall_dec`,
  `FunctionalExtensionality.functional_extensionality_dep` and `Classical_Prop.classic`
  (through Flocq, which adds none of its own).
* The correspondence between `/repo` and the model is by reading; each
  definition cites its source lines.
* Not modelled: error messages of the grammar, the texts of floating point numbers (a record
  `float_text`, quantified over), UTF-8 validation details, the
  operating system beyond the file-system state machine described in C35,
  logging, and the FFI layer apart from `scc_copy_error`.

### What is modelled

| code in `/repo` | model |
|---|---|
| `core/src/{bytecode,definition,bundle,decode,encode}.rs` | `Bytes.v`, `Bytecode.v`, `Definitions.v`, `Bundle.v` |
| `core/src/ast.rs` (expressions, type names, spans) | `Ast.v`, `TypeNames.v` |
| `core/src/{cursor,mapper}` (code cursor, labels, offsets), `compiler/src/assembler.rs` | `Cursor.v`, `Assembler.v` |
| `compiler/src/{scope,symbol,typechecker,type_id}.rs` | `Pool.v`, `Scope.v`, `TypeCheck.v`, `Symbols.v`, `Search.v` |
| `compiler/src/{diagnostics,source_map,cte}.rs` and the passes below `diagnostics/` | `Report.v`, `Diagnostics.v`, `SourceMap.v`, `Symbols.v` |
| `compiler/src/{sugar,transform}.rs` | `Desugar.v` |
| `decompiler/src/lib.rs` | `Decompiler.v` (recursion with fuel; running out is an explicit error; a panic of the cursor is an error value) |
| `decompiler/src/print.rs` 12-27, 232-454, 480-523 | `Printer.v` (expressions and statements) |
| `decompiler/src/print.rs` 22-229, 455-478 (source code), `cli/src/main.rs` 157-168 | `Dump.v`; the modes that print syntax trees and bytecode are left out |
| `decompiler/src/files.rs`, `cli/src/main.rs` 141-156 | `DumpFiles.v`; creating directories and errors of the file system are left out |
| `compiler/src/diagnostics.rs` 56-88, `compiler/src/source_map.rs` 196-226 | `Display.v`; the message texts (thiserror) are a parameter, paths are bytes |
| `compiler/src/source_map.rs` 20-35, 78-91, 228-256 | `Sources.v`; what the operating system answers is a parameter (a tree with followed links; entries with errors, for example links to nothing, are skipped as the code does); the separator is / |
| `cli/src/main.rs` 106-129, 174-200 | `Cli.v`; the file system is as in `Sources.v` and the cache file is its bytes; log messages other than diagnostics are left out, and the place of a syntax error is a parameter; an error of the disk while writing is left out; `run` and the parsing of arguments (main.rs 1-104) are not modelled, nor is `setup_logger` |
| `scc/lib/src/lib.rs` 77, 185-239, 261-274 | `SccCompile.v`; which cache file is read is in `Backup.v`; the message of a failure is in `Failure.v`; the log besides diagnostics and the timestamp (`Scc.v`) are left out; an error of the disk while writing is left out |
| `scc/cli/src/opts.rs` 6-50 | `Args.v`; the option parser (bpaf) is left out |
| `compiler/src/parser.rs` 152-388, statements, declarations, modules | `Grammar.v` (in the manner of `Parser.v`) |
| `compiler/src/parser.rs` 162-481, expressions | `Parser.v` (rust-peg's ordered choice and precedence climbing as functions on byte lists; every span is `span0`) |
| `compiler/src/parser.rs` 152-493, positions; `compiler/src/unit.rs` 141-151 | `Positions.v` |
| `core/src/mapper.rs`, `compiler/src/unit.rs` cleanup_pool | `Mapper.v`, `Cleanup.v` (BTreeSet as an ordered list, the hierarchy map as a filter of the pool) |
| `compiler/src/unit.rs` 268-272, 298-318, 784-840, 1058-1130 (wrappers) | `Wrappers.v` (`base` of a registered slot is left out; the orders in which hash maps are walked are arguments; the rest of the compiler between the four phases is any change of the pool that `keeps` allows) |
| `compiler/src/unit.rs` 31-1057, 1212-1313 (CompilationUnit), `compiler/src/parser.rs` 13-132 (declarations) | `Unit.v`: from parsed declarations to the finished pool. Left out: parsing and its errors, the warnings of the log. Simplified: a failure of get_type_index, of checking or of desugaring leaves the pool as it was before (the code may have added names or types; each of these failures is fatal or unwinds). The orders in which hash maps are walked, the source files and the printed form of floats are arguments (`env`) |
| `scc/lib/src/api.rs` 86-170 (questions about source references) | `Refs.v` (pointer and length of a string stand for the string; paths are taken to be UTF-8) |
| `scc/lib`, `scc/shared` (entry points, timestamps, backups, hints, the failure message) | `Scc.v`, `Backup.v`, `Failure.v` |

`Semantics.v` (what a typed body means) and `Machine.v` (what a code list does) are
not models of code in `/repo`, which contains no interpreter.  They are the
specification C17, C28, C29, C31 and C32 refer to, and therefore part of the
trusted base: operations are uninterpreted (a `runtime` record, quantified over),
control flow and the order of evaluation are fixed.

`SugarSpec.v` extends that meaning to array literals and for-in loops (`seval`,
`run_for`, `srun`) for C28 and C29.  A desugared body keeps values in extra local
variables, so these two properties need to know what a variable is; the record
`temporaries` lists the laws assumed of the runtime (a variable holds what was
assigned to it, arrays can be resized and indexed, integers counted, and an
operation that is not given a reference to a temporary cannot tell what is in
it).  `SugarDemo.v` defines a runtime that meets them.

C25 is about what a call reaches at run time.  `WrapSpec.v` says this without the
compiler: a virtual call takes the nearest member with the name of the callee
(`dispatch`), a direct call its operand.  The declarations and bodies compiled
between the modelled phases are covered by the relation `keeps`; `WrapSteps.v`
proves that adding definitions, `@addMethod`, and installing the assembled code
of a body are such changes.  The code accepts a wrapper of a native function (only
the wrapper's own qualifiers are looked at); the theorems cover that case, the
proxy then keeps the native flag next to its body.

### Statements that are false of the model

| property | theorem | what happens |
|---|---|---|
| C05 | `C05_…_refuted` in `P_Bundle.v` | a pool without definitions is not read back |
| C07 | `C07_…_refuted` | an empty name pool |
| C09 | `C09_…_refuted` | checksums are never compared |
| C10 | `C10_…_refuted` | type names with several arguments |
| C11 | `C11_…_refuted` | signatures have no separators |
| C15, C17 | `C15_empty_last_case_refuted`, `C17_empty_last_case_refuted` | a switch whose last case is empty jumps to the start of the function |
| C18 | `C18_after_loop_lost_refuted` | after a loop whose body ends with `return` the jump back is read as a statement, and the rest of the body is lost |
| C18 | `C18_unreachable_becomes_reachable_refuted` | statements after a `return` in an else-part are decompiled as statements after the conditional |
| C18 | `C18_super_becomes_this_refuted` | `super.f()` is decompiled as `this.f()` |
| C18 | `C18_long_conditional_refuted` | a branch of more than 32767 bytes stops the decompiler |
| C46 | `C46_jump_to_itself_refuted` | a conditional jump with offset 0 makes the decompiler add conditionals to the body for ever |
| C46 | `C46_compiled_code_never_ends_refuted` | `switch 7 { case 1: }` is compiled to code on which the decompiler calls itself for ever |
| C47 | `C47_case_type_refuted` | the value of a case may have a type that has nothing to do with the type of the switch |
| C47 | `C47_assigned_place_refuted` | `1 = 2` is accepted: the left side of an assignment need not be a place |
| C47 | `C47_required_argument_refuted` | given `func G(opt a: Int32, b: Int32)`, `G(1)` is accepted and leaves the required `b` without a value |
| C50 | `C50_reproducible_refuted` | with two wrapped methods, the definitions of the proxies are numbered in the order in which the map of wrappers is walked: two runs give different bundles |
| C51 | `C51_member_visibility_refuted` | a private method of a public class is public: members get the visibility of their class |
| C51 | `C51_overriding_member_refuted` | a method declared in a class does not name the method of the base class with its signature as its base method; one added with @addMethod does |
| C52 | `C52_duplicates_refuted` | two functions with the same signature, two enums of one name, an enum and a class of one name and two fields of one name in a class compile without any diagnostic; only two classes of one name are reported |
| C53 | `C53_module_parser_never_aborts_refuted` | a file with the string `"\u{110000}"` |
| C54 | `C54_goto_refuted` | a jump that the decompiler cannot make a statement of is printed as `goto 5;`, which the grammar does not know |
| C54 | `C54_statement_words_refuted` | a variable called `break`, used as a statement, is read as the statement |
| C56 | `C56_field_words_refuted` | inline, replicated and editable fields are printed with the words `inline`, `replicated`, `edit`, which the grammar does not know |
| C56 | `C56_default_values_refuted` | default values of fields are printed as `@default(Foo, 1)`, an annotation that does not exist |
| C56 | `C56_property_texts_refuted` | the texts of runtime properties are printed without escapes: a quote ends them |
| C56 | `C56_static_arrays_refuted` | `array<Int32; 4>` is not a type of the grammar |
| C56 | `C56_derived_structs_refuted` | a struct with a base is printed with `extends`, which the grammar allows for classes only |
| C56 | `C56_parameter_names_refuted` | a parameter called `out` (or like any other qualifier) is read as a qualifier |
| C56 | `C56_enum_values_refuted` | values of enums outside of 32 bits are printed without the suffix that they need |
| C56 | `C56_failed_methods_refuted` | a method that cannot be decompiled is logged and skipped, but its head and open brace stay in the text, so that nothing of the file can be read |
| C58 | `C58_same_path_refuted` | two source files with the same path: the second text replaces the first, what is only in the first is lost |
| C58 | `C58_orphans_refuted` | a source file called `orphans.script` replaces the enums and native definitions |
| C58 | `C58_once_refuted` | a class with methods from two files is written whole to both, so that the files declare it twice |
| C58 | `C58_outside_refuted`, `C58_upwards_refuted` | a bundle, as bytes, with a source file `/etc/passwd` or `../../.bashrc`: that file is written, whatever the output directory |
| C60 | `C60_two_directories_refuted` | `-compile "C:\Game\r6\scripts\" -customCacheDir "D:\cache\" -optimize`: the last option becomes a part of the directory, `D:\cache\ -optimize` |
| C60 | `C60_two_spaces_refuted` | two spaces in a path after a directory that ends with a backslash become one |
| C62 | `C62_syntax_hints_refuted` | a hint registered for SYNTAX_ERR that applies to the line of a syntax error is not shown: compile_and_report has turned the error into one with the code OTHER, so the codes SYNTAX_ERR and CTE_ERR in ErrorReport::from_error are never used |
| C63 | `C63_operators_refuted` | in `(a) + -(b)` the place of the sum is `a) + -(b` and that of the negation is `b`: fn unop takes the place of the operand, and parentheses have none; diagnostics underline this text |
| C65 | `C65_directories_refuted` | a directory called `old.reds` passes the filter, which looks only at the name, and reading it as a file fails, so nothing is compiled, although all scripts are readable |
| C65 | `C65_overlapping_refuted` | given the directories `s` and `s/m`, the scripts of `s/m` are loaded twice (and then every definition in them clashes with itself) |
| C66 | `C66_large_integers_keep_their_value_refuted` | `16777217` where a Float is needed is the number 16777216 (the stated exception), without a warning |
| C67 | `C67_failure_is_visible_refuted` | a build with errors ends with the exit status of success, like one that wrote its output; only the log differs |
| C67 | `C67_lint_reports_refuted` | lint without a bundle checks nothing and succeeds |
| C67 | `C67_strings_are_kept_refuted` | the literal `"a\u{0}b"` compiles without complaint and is the string `a` in the written cache (the stated exception: strings end at the character 0 in the file) |
| C68 | `C68_same_scripts_refuted` | scc runs none of the passes, so a script with a case that falls through, an error for the tool, is compiled and written by scc (the stated exception) |
| C68 | `C68_tool_output_is_refused_refuted` | the tool does not add the mark, so scc compiles on top of what the tool compiled |
| C69 | `C69_never_aborts_refuted` | one changed byte of a loadable file (the kind of a definition or of a type, the visibility of a class) makes loading panic: the decoders use `expect`/`panic!` for unknown values |
| C19 | `printed_expression_reads_back_refuted` | `a - (b - c)` is printed as `a - b - c` |
| C19 | `printed_constants_refuted`, `printed_receivers_refuted`, `printed_conversion_refuted`, `printed_comparisons_refuted` | negative constants; Uint64 constants; operators below `.`, `[`, `as`; a conversion left out; `f(a < b, c > (d))` |
| C44 | `expression_parser_never_aborts_refuted` | `"\u{110000}"` |
| C21 | `C21_…_refuted` | nested null types |
| C29 | `C29_literals_evaluate_in_place_refuted` | an array literal is evaluated before its whole statement: once if in a loop condition, always if in an untaken branch, before earlier arguments; if in a case label, in the body of the next case |
| C41 | `C41_declared_before_use_refuted` | `y = x; x = 1;` is given the declarations `let y = x; let x = 1;` |
| C31 | `C31_switch_without_default_refuted`, `C31_break_refuted` | a switch without default, or a break before the return, counts as returning |
| C35 | `C35_…_refuted` (two) | a crash between copy and write; a stale backup |
| C37 | `C37_…_refuted` | buffer of size 0 |
| C38 | `C38_…_refuted` | empty module path |
| C40 | `C40_…_refuted` | static arrays of prefixed types, shadowed classes, sibling scopes |
