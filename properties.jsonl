{"id": "C01", "title": "Instruction encode/decode round trip", "statement": "Writing any bytecode instruction with Encode and reading the bytes back with Decode yields the same instruction and consumes exactly the bytes written, whatever bytes follow it in the stream.", "quantifier": "all 104 instruction kinds, all operand values representable in the operand's machine type, all trailing bytes", "why_tests_cant": "the operand space is astronomically large and the claim also ranges over every continuation of the stream; a test samples a few operands", "anchors": ["core/src/bytecode.rs: impl Encode/Decode for Instr<Offset>", "core/src/encode.rs", "core/src/decode.rs"]}
{"id": "C02", "title": "Function body round trip", "statement": "Writing a function body (Code) and reading it back yields the same instruction list and consumes exactly the bytes written; the precise condition is that the body is empty or its last instruction has a non-zero size, and the total size fits u32.", "quantifier": "all instruction lists of any length, all trailing bytes", "why_tests_cant": "the reader stops on a running size total rather than on a count, so correctness depends on an invariant over lists of every length", "anchors": ["core/src/bytecode.rs: impl Encode/Decode for Code<Offset>", "Instr::size"]}
{"id": "C03", "title": "Re-encoding decoded code is stable", "statement": "If reading an instruction from arbitrary bytes succeeds, then re-writing the result and reading again gives the same instruction, and the re-written bytes are identical to the consumed bytes except for a non-canonical boolean in a Breakpoint or wrapped jump bias.", "quantifier": "all byte strings", "why_tests_cant": "the input is an arbitrary byte string (malformed files included)", "anchors": ["core/src/bytecode.rs: impl Encode/Decode for Instr<Offset>"]}
{"id": "C04", "title": "Definition encode/decode round trip", "statement": "Saving a class, enum, function, field, type, local, parameter, enum value or source file and loading it back gives the same definition, with the derived flag bits (has_functions, has_fields, has_body, ...) recomputed from the contents; the definitions that change are exactly the documented ill-formed ones (e.g. non-native function without source reference).", "quantifier": "all definitions of all kinds with vectors of any length, all trailing bytes", "why_tests_cant": "optional sections are controlled by flag bits interacting with the contents; the number of flag/content combinations is unbounded", "anchors": ["core/src/definition.rs: Class, Enum, Function, Field, Type, Local, Parameter, SourceFile, Property"]}
{"id": "C05", "title": "Script bundle save/load round trip", "statement": "ScriptBundle::load applied to the output of ScriptBundle::save gives back the same constant pool: same names, tweakdb ids, resources, strings and definitions in the same order with the same indices, and the same header metadata.", "quantifier": "all pools with NUL-free strings, well-formed definitions and total size below 4 GiB", "why_tests_cant": "file layout offsets depend on every string and definition in the pool; tests reload one shipped file and only compare the number of definitions", "anchors": ["core/src/bundle.rs: ScriptBundle::load/save, ConstantPool::encode/decode, Strings, DefinitionHeader"]}
{"id": "C06", "title": "Saved file layout is self-describing", "statement": "In a saved bundle every table header describes exactly the byte range that holds that table (offset, element count), the ranges are contiguous and non-overlapping, every definition header's offset and size delimit exactly that definition's encoding, and the stored checksums are the checksums of those ranges.", "quantifier": "all pools", "why_tests_cant": "layout arithmetic over variable-length sections; an off-by-one only shows for particular sizes", "anchors": ["core/src/bundle.rs: ConstantPool::encode, TableHeader, DefinitionHeader::encode_definition"]}
{"id": "C07", "title": "String pool lookups are stable", "statement": "After any sequence of additions to a string pool: looking up the index returned by adding s gives s, adding an already present string returns its old index and changes nothing, and indices handed out earlier keep denoting the same strings.", "quantifier": "all pools and all sequences of add operations (any kind of pool)", "why_tests_cant": "quantifies over histories of additions and over the special default entry of the name pool", "anchors": ["core/src/bundle.rs: Strings::add/get/get_index, DefaultString"]}
{"id": "C08", "title": "Strings are stored once", "statement": "In a saved bundle each distinct string occurs exactly once in the data section, and equal strings from different pools share the same offset.", "quantifier": "all combinations of four string pools", "why_tests_cant": "deduplication is a global property of all pools taken together", "anchors": ["core/src/bundle.rs: ConstantPool::encode dedup_map, Strings::encoded_offsets"]}
{"id": "C09", "title": "Corrupt bundles are rejected on load", "statement": "Loading a file whose magic is wrong fails; loading a file whose checksummed content was altered fails.", "quantifier": "all byte strings", "why_tests_cant": "an attacker or a disk can produce any byte string", "anchors": ["core/src/bundle.rs: Header::decode, ConstantPool::decode"]}
{"id": "C10", "title": "Type name representation is faithful", "statement": "Converting a type name to its pool representation and parsing it back gives the same type name, and distinct type names have distinct representations.", "quantifier": "all type names of any nesting depth", "why_tests_cant": "names nest arbitrarily deep", "anchors": ["core/src/ast.rs: TypeName::repr/from_repr"]}
{"id": "C11", "title": "Function signatures identify overloads", "statement": "Two functions of the same name get the same mangled signature only if their parameter type lists are the same up to ref/wref wrappers.", "quantifier": "all names and all parameter lists", "why_tests_cant": "injectivity over all pairs of parameter lists", "anchors": ["compiler/src/symbol.rs: FunctionSignatureBuilder", "core/src/ast.rs: TypeName::mangled"]}
{"id": "C12", "title": "Code cursor seeks to instruction boundaries", "statement": "Seeking the code cursor to a position succeeds exactly when the position is the start of an instruction or the end of the code; afterwards the cursor reports that position and the next instruction read is the one located there; reading to the end from there yields the same (position, instruction) pairs as iterating over the code.", "quantifier": "all instruction lists whose total size is below 64 KiB, all positions", "why_tests_cant": "positions are sums of sizes over code of any length", "anchors": ["core/src/bytecode.rs: CodeCursor, CodeIter, Location, Offset"]}
{"id": "C13", "title": "Relative offsets invert", "statement": "For any two code positions, the relative offset from one to the other, applied at the first, gives the second, including across the 32 KiB signed boundary.", "quantifier": "all pairs of 16-bit positions", "why_tests_cant": "2^32 pairs with two's complement wrap-around", "anchors": ["core/src/bytecode.rs: Location::relative, Offset::absolute"]}
{"id": "C14", "title": "Assembled jumps land on their labels", "statement": "In assembled code every jump-like operand, applied at the position of its own instruction, designates the position at which the corresponding label was placed in the instruction stream (labels themselves occupy no space).", "quantifier": "all emitted instruction streams of total size below 64 KiB with any number of labels", "why_tests_cant": "two-pass address resolution over arbitrary streams", "anchors": ["compiler/src/assembler.rs: Assembler::into_code", "core/src/bytecode.rs: Instr::resolve_labels"]}
{"id": "C15", "title": "Every label used by compiled code is placed exactly once", "statement": "For every typed function body the assembler accepts, each label it allocates and refers to is placed exactly once, so no jump falls back to position 0.", "quantifier": "all typed statement/expression trees", "why_tests_cant": "label discipline must hold for every nesting of loops, switches, conditionals and calls", "anchors": ["compiler/src/assembler.rs: Assembler::assemble"]}
{"id": "C16", "title": "break leaves the innermost loop or switch", "statement": "A break statement compiles to a jump to the end of the innermost enclosing while loop or switch, a break outside of any is a compile error, and no other construct accepts or changes the break target.", "quantifier": "all nestings of statements", "why_tests_cant": "nesting is unbounded", "anchors": ["compiler/src/assembler.rs: Assembler::assemble (exit parameter)"]}
{"id": "C17", "title": "Compiled control flow behaves like the source", "statement": "Running the assembled code of a statement sequence (if/else, while, switch, break, return, expression statements) performs the same sequence of effects and returns the same value as the source program.", "quantifier": "all statement trees, all expression semantics, all initial states", "why_tests_cant": "program equivalence over unbounded executions", "anchors": ["compiler/src/assembler.rs: Assembler::assemble", "Assembler::into_code"]}
{"id": "C18", "title": "Decompiling compiled code recovers the program", "statement": "Decompiling the code the compiler produced for a function body yields the same statements and expressions, up to documented normalisations.", "quantifier": "all function bodies in the stated fragment", "why_tests_cant": "recovering structure from jumps must work for every nesting", "anchors": ["decompiler/src/lib.rs: Decompiler::consume_with, consume_conditional_jump, consume_path", "compiler/src/assembler.rs"]}
{"id": "C19", "title": "Printed operators reparse to the same tree", "statement": "An operator expression printed by the decompiler and parsed again by the compiler's expression grammar denotes the same expression tree.", "quantifier": "all operator expression trees", "why_tests_cant": "precedence and associativity interact at every nesting depth", "anchors": ["decompiler/src/print.rs: write_call, write_binop, write_unop", "core/src/ast.rs: BinOp::does_associate", "compiler/src/parser.rs: expr precedence table"]}
{"id": "C20", "title": "Implicit conversions are sound and complete", "statement": "The compiler inserts an implicit conversion from one type to another exactly when one is allowed by the language's rules (same type, upcast of ref/wref along the class hierarchy, ref to wref, null, script_ref and Variant wrapping), and the conversion chosen is the right one.", "quantifier": "all pairs of types over all acyclic class hierarchies", "why_tests_cant": "hierarchies and type nesting are unbounded", "anchors": ["compiler/src/typechecker.rs: find_conversion, insert_conversion, collect_supertypes"]}
{"id": "C21", "title": "Unification picks the least common type", "statement": "When two branch types are unified the result is a common supertype of both, is the most specific one, and does not depend on the order of the branches.", "quantifier": "all pairs of types over all acyclic hierarchies", "why_tests_cant": "least upper bounds quantify over all other upper bounds", "anchors": ["compiler/src/typechecker.rs: lub, collect_supertypes"]}
{"id": "C22", "title": "Overload resolution picks a callable candidate", "statement": "When a call resolves, the selected candidate accepts the number of arguments given and every argument converts to its parameter type; when no candidate is applicable an error is reported; the choice is the first applicable in candidate order.", "quantifier": "all candidate lists and argument lists", "why_tests_cant": "arbitrary candidates with optional parameters and conversions", "anchors": ["compiler/src/typechecker.rs: resolve_overload, validate_call, validate_args"]}
{"id": "C23", "title": "Member lookup finds the nearest declaration", "statement": "Field lookup returns the field declared nearest in the superclass chain; method lookup returns all methods with that name, those of subclasses before those of superclasses; both fail exactly if no class on the chain declares the name.", "quantifier": "all acyclic class hierarchies, all names", "why_tests_cant": "chains have arbitrary length", "anchors": ["compiler/src/scope.rs: Scope::resolve_field, resolve_method"]}
{"id": "C24", "title": "Output class order respects inheritance", "statement": "After compilation, classes in the bundle are ordered so that every class comes after its base class, nothing is lost or duplicated, and all references (bases, parents, instruction operands) still denote the same classes.", "quantifier": "all pools with acyclic hierarchies", "why_tests_cant": "permutation correctness over hierarchies of any shape", "anchors": ["compiler/src/unit.rs: CompilationUnit::cleanup_pool", "core/src/mapper.rs: PoolMapper"]}
{"id": "C25", "title": "Stacked method wrappers all run", "statement": "If a method is wrapped n times, calling it runs the most recently registered wrapper first, each wrapper's call to the wrapped method reaches the previous wrapper, and the last reaches the original body; callers elsewhere are unaffected by the number of wrappers.", "quantifier": "all numbers of wrappers on all methods in any order", "why_tests_cant": "n is unbounded and wrappers of different methods interleave", "anchors": ["compiler/src/unit.rs: determine_function_location, construct_proxy, finish"]}
{"id": "C26", "title": "Compilation succeeds exactly without fatal diagnostics", "statement": "compile_and_report returns Ok exactly if no fatal diagnostic was produced, the reported spans are exactly those of the fatal diagnostics, and non-fatal diagnostics are logged before fatal ones in original order.", "quantifier": "all lists of diagnostics", "why_tests_cant": "any mixture and length of diagnostics", "anchors": ["compiler/src/unit.rs: compile_and_report, finish", "compiler/src/diagnostics.rs: Diagnostic::is_fatal"]}
{"id": "C27", "title": "Conditional compilation evaluates boolean logic", "statement": "An @if condition built from booleans, ModuleExists, !, &&, || and ?: evaluates to its logical value; anything else is an error; a definition is kept exactly if all of its @if conditions hold.", "quantifier": "all condition expressions and all module sets", "why_tests_cant": "expressions nest arbitrarily", "anchors": ["compiler/src/cte.rs: Context::eval", "compiler/src/unit.rs: eval_conditions"]}
{"id": "C28", "title": "for-in visits every element once in order", "statement": "A for-in loop evaluates its array once and runs its body once per element in index order.", "quantifier": "all arrays, all loop bodies", "why_tests_cant": "arrays and bodies are unbounded", "anchors": ["compiler/src/sugar.rs: Desugar::on_for_in"]}
{"id": "C29", "title": "Array literals evaluate where they are written", "statement": "Replacing an array literal by its desugared form does not change when, how often or in what order its element expressions are evaluated.", "quantifier": "all programs containing array literals", "why_tests_cant": "program equivalence over all contexts", "anchors": ["compiler/src/sugar.rs: Desugar::on_array_lit, on_seq", "compiler/src/transform.rs"]}
{"id": "C30", "title": "Desugaring removes all sugar", "statement": "After desugaring, no array literal, interpolated string or for-in loop remains anywhere, so the assembler never rejects a function because of them.", "quantifier": "all typed programs", "why_tests_cant": "sugar may occur in any position at any depth", "anchors": ["compiler/src/sugar.rs", "compiler/src/transform.rs: ExprTransformer"]}
{"id": "C31", "title": "A function without a missing-return warning always returns", "statement": "If the missing return check reports nothing for a function with a return value, every execution of its body that terminates ends in a return statement.", "quantifier": "all function bodies and all executions", "why_tests_cant": "quantifies over all executions of all programs", "anchors": ["compiler/src/diagnostics/missing_return.rs"]}
{"id": "C32", "title": "Switch cases without fallthrough diagnostics do not fall through", "statement": "If the fallthrough check reports nothing, no case body with statements continues into the next case body.", "quantifier": "all switch statements and all executions", "why_tests_cant": "quantifies over executions", "anchors": ["compiler/src/diagnostics/stmt_fallthrough.rs"]}
{"id": "C33", "title": "Unused local warnings are exact", "statement": "A local variable is reported as unused exactly if it is declared and no expression anywhere in the body refers to it.", "quantifier": "all function bodies", "why_tests_cant": "references may occur at any depth in any construct", "anchors": ["compiler/src/diagnostics/unused_local.rs", "compiler/src/transform.rs: visit_expr"]}
{"id": "C34", "title": "Source positions resolve to the right file and line", "statement": "For every position inside a loaded file, lookup returns that file, the number of newlines before the position as line, and the number of characters since the line start as column; positions of different files never overlap; the enclosing line text contains the position.", "quantifier": "all sequences of loaded files and all positions", "why_tests_cant": "files of any size and number, empty files, files without trailing newline", "anchors": ["compiler/src/source_map.rs: Files::add, lookup_file, lookup, File::lookup, enclosing_line, source_slice"]}
{"id": "C35", "title": "Backup of the game's original cache is preserved", "statement": "Over any sequence of compiler runs (successful, failing, or killed at any point) interleaved with game updates, the pristine script cache provided by the game remains available, and every run compiles against it rather than against an already modded cache.", "quantifier": "all sequences of runs, updates and crash points, in both output modes", "why_tests_cant": "crash points and histories are unbounded", "anchors": ["scc/lib/src/lib.rs: try_compile, try_compile_files", "scc/lib/src/timestamp.rs"]}
{"id": "C36", "title": "Timestamp file round trip", "statement": "Reading the timestamp file after writing a timestamp returns that timestamp; an empty file reads as none; a truncated file is an error.", "quantifier": "all timestamps and all file contents", "why_tests_cant": "all 128-bit values and all partial contents", "anchors": ["scc/lib/src/timestamp.rs: CompileTimestamp::read/write"]}
{"id": "C37", "title": "Error text copy stays within the caller's buffer", "statement": "scc_copy_error writes at most buffer_size bytes including a terminating NUL, returns the number of text bytes written, and those bytes are a prefix of the error text.", "quantifier": "all error texts and all buffer sizes", "why_tests_cant": "all size combinations including 0", "anchors": ["scc/lib/src/api.rs: scc_copy_error"]}
{"id": "C38", "title": "Module path parse/render round trip", "statement": "Rendering a module path and parsing it gives the same path, and two different module paths render differently.", "quantifier": "all module paths", "why_tests_cant": "paths of any length", "anchors": ["compiler/src/symbol.rs: ModulePath::parse, render"]}
{"id": "C39", "title": "Imports expose exactly the visible symbols", "statement": "Importing makes available exactly those symbols of the module that are visible at the importing visibility; raising the visibility never hides a symbol.", "quantifier": "all symbol tables, import forms and visibilities", "why_tests_cant": "symbol tables of any size", "anchors": ["compiler/src/symbol.rs: populate_import, Symbol::visible, get_direct_children"]}
{"id": "C40", "title": "Type indices are canonical", "statement": "Asking for the pool index of a type twice gives the same index without growing the pool, the index denotes that type, and previously issued indices are unaffected.", "quantifier": "all types, all scopes and pools, all histories of requests", "why_tests_cant": "histories and nesting are unbounded", "anchors": ["compiler/src/scope.rs: Scope::get_type_index, resolve_type_from_pool"]}
{"id": "C41", "title": "Declaration merging preserves the program", "statement": "Adding local declarations to decompiled code keeps all statements in order, declares every local exactly once, and declares it before any other use.", "quantifier": "all statement lists and local sets", "why_tests_cant": "lists of any length", "anchors": ["decompiler/src/lib.rs: merge_declarations"]}
{"id": "C42", "title": "Flag words keep independent bits", "statement": "Reading a flag after setting it gives the value set, setting one flag changes no other bit, and bits without a name survive a load/save cycle.", "quantifier": "all flag words and all flags", "why_tests_cant": "2^32 words times all flags", "anchors": ["core/src/definition.rs: FunctionFlags, ClassFlags, FieldFlags, LocalFlags, ParameterFlags", "core/src/bundle.rs: Timestamp"]}
{"id": "C43", "title": "Error hints match deterministically", "statement": "The hint shown for an error is the first registered hint for that error code whose file pattern and text pattern match, and none is shown when none matches.", "quantifier": "all hint lists and errors", "why_tests_cant": "hint lists of any length", "anchors": ["scc/lib/src/hints.rs: UserHints::get_by_error"]}
{"id": "C44", "title": "Parsing an expression always ends, and does not abort", "statement": "Parsing any text as an expression ends with an expression that consumed a non-empty prefix of the text, or with a rejection; it neither loops nor panics.", "quantifier": "all byte strings", "why_tests_cant": "there are infinitely many texts; loops and panics hide in odd ones", "anchors": ["compiler/src/parser.rs: grammar lang, rules expr, escaped_char, number, comment"]}
{"id": "C45", "title": "String literals survive printing and parsing", "statement": "The quoted text the decompiler prints for a string is parsed as exactly that string, whatever text follows it.", "quantifier": "all valid UTF-8 strings and all following texts", "why_tests_cant": "escapes interact with every character", "anchors": ["decompiler/src/print.rs: write_expr_nested (str::escape_default)", "compiler/src/parser.rs: escaped_string, escaped_char"]}
{"id": "C46", "title": "Decompiling a function body ends", "statement": "Decompiling any function body ends after finitely many steps, with statements or with an error, also when jumps in the body lead backwards, to themselves or to nowhere.", "quantifier": "all instruction lists, and in particular all that the compiler emits", "why_tests_cant": "the decompiler follows jump offsets; endless loops hide in rare offsets", "anchors": ["decompiler/src/lib.rs: Decompiler::decompile, consume_path, consume_conditional_jump, consume_switch, consume_with"]}
{"id": "C47", "title": "Accepted code is well typed", "statement": "When a function body is type checked without a diagnostic, every value in the resulting code suits the place it is given to: the arguments of calls, methods, constructors and built-in functions, assigned and initial values, returned values, conditions and indices; fields and methods are those of the class of the receiver or of one of its ancestors, and there is at most one argument per parameter.", "quantifier": "all source bodies, pools, scopes and expected types", "why_tests_cant": "programs and class hierarchies are unbounded; a rule that is skipped shows only in programs that ought to be rejected", "anchors": ["compiler/src/typechecker.rs: check, check_seq, check_overloads, validate_call, find_conversion, insert_conversion", "compiler/src/scope.rs: resolve_field, resolve_method, resolve_type_from_pool"]}
{"id": "C48", "title": "Scripts change only what they name", "statement": "Compiling scripts into a bundle leaves every string and every definition of the bundle as it was, except those the scripts name: a class gets new functions or fields at the end of its lists only if an @addMethod, @wrapMethod or @addField is about it, a function gets a new body only if a @replaceMethod or @replaceGlobal with its signature is about it, and a method is exchanged only if a @wrapMethod is about it. References between definitions stay valid when classes are put in order.", "quantifier": "all bundles in which everything is named and the functions listed by a class belong to it, all sets of modules, all orders in which hash maps are walked", "why_tests_cant": "bundles have hundreds of thousands of definitions and mods combine freely; a test looks at the few definitions it is about", "anchors": ["compiler/src/unit.rs: CompilationUnit::compile, compile_modules, define_symbol, determine_function_location, define_function, define_field, define_class, define_enum, define_global_let, compile_default, compile_function, construct_proxy, finish"]}
{"id": "C49", "title": "Disabled declarations have no effect", "statement": "A declaration, class member or import whose @if conditions do not hold has no effect: compiling gives the bundle, the diagnostics and the source references that compiling the scripts without it gives, even if it would be wrong. If nothing is enabled, the bundle that was given comes back.", "quantifier": "all sets of modules, all bundles, all conditions", "why_tests_cant": "every declaration can interact with every other one through names, diagnostics, the order of definitions and wrappers", "anchors": ["compiler/src/unit.rs: CompilationUnit::compile_modules, define_class, eval_conditions"]}
{"id": "C50", "title": "Compiling is reproducible", "statement": "Compiling the same scripts into the same bundle again gives the same bundle, diagnostics and source references, although hash maps may be walked in another order.", "quantifier": "all sets of modules, all bundles, all orders in which hash maps are walked", "why_tests_cant": "the order changes from run to run; a test sees one order", "anchors": ["compiler/src/unit.rs: CompilationUnit::compile_modules (wrappers), finish (proxies), construct_proxy (mapped_locals)"]}
{"id": "C51", "title": "Declarations take effect as declared", "statement": "When scripts that wrap no method compile with no diagnostic but warnings that leave declarations alone (deprecated things, unused variables, missing returns, a method added although the class has it), every enabled declaration is in the bundle under its name, with what it declares: classes and structs with their base, flags and exactly the enabled members in their order (members have the visibility of the class); enums with their members and values; functions with parameters, return type, flags, visibility and the code of their body; fields in the class they are added to, with type, flags, attributes and default value. A replacement takes the place of the function of the bundle it names, an added method is in the class it names and overrides the method of the base class with its signature.", "quantifier": "all bundles in which everything is named, all sets of modules without @wrapMethod (for which see C25), all orders in which hash maps are walked", "why_tests_cant": "declarations interact through names, imports and indices that are given out one by one; a test looks at a few declarations at a time", "anchors": ["compiler/src/unit.rs: CompilationUnit::compile, compile_modules, define_symbol, determine_function_location, define_function, define_parameter, define_field, define_class, define_enum, define_global_let, compile_default, compile_function, finish"]}
{"id": "C52", "title": "The rules for declarations are enforced", "statement": "When scripts compile without a fatal diagnostic, every enabled declaration obeys the rules: a native function has no body and is in a native class or in none, any other function has a body unless its class is abstract; methods of structs are static; native fields are in native classes; persistent fields have types that can be stored; runtime properties are given by two strings; annotations name classes that exist; a wrapper is not native. A method added under a signature its class already has, or added twice, is reported as a conflict; so are a method replaced twice and a field added to a class of the bundle under a name that class already has.", "quantifier": "all bundles in which everything is named, all sets of modules, all orders in which hash maps are walked", "why_tests_cant": "each rule must hold at every place where a function or field can be declared; a check that one place lacks shows only in scripts that ought to be rejected", "anchors": ["compiler/src/unit.rs: CompilationUnit::compile_modules, determine_function_location, define_symbol, define_function, define_field, define_class, define_global_let", "compiler/src/diagnostics.rs: Diagnostic::is_fatal"]}
{"id": "C53", "title": "Reading a source file ends", "statement": "Given any text, the parser for source files and the parser for function bodies come to an end, without looping and without unbounded recursion on the same place in the text: the text is accepted as a whole, or rejected. They abort only if the text has an escape `\\u{...}` that names no character.", "quantifier": "all texts, of any length and nesting", "why_tests_cant": "a rule that can succeed without taking anything loops for ever only inside a repetition that reaches it on some input; tests parse texts that are meant to be parsed", "anchors": ["compiler/src/parser.rs: lang::module, source_entry, class, function, field, enum_, global_let, stmt, parse_str, parse_file"]}
{"id": "C54", "title": "Printed function bodies read back", "statement": "The text the decompiler prints for the body of a function is read by the parser of the compiler, whatever follows it, as a body with the same statements in the same order: the same kinds of statements, nesting, names and types, and the same expressions (C19).", "quantifier": "all function bodies, of any length and nesting, at any indentation", "why_tests_cant": "the printer and the parser must agree on every combination of statements, and on where a statement ends; tests print and read a few bodies", "anchors": ["decompiler/src/print.rs: write_function_body, write_seq, write_expr", "compiler/src/parser.rs: lang::stmt, statements, if_, while_, switch, case, default, let, return_, function_body"]}
{"id": "C55", "title": "Names stand for the nearest variable, and code uses its own variables only", "statement": "In a function body that is accepted, each name stands for the nearest variable of that name declared before it in an enclosing block, for the parameter of that name if there is none, and for the symbol of that name if there is no such parameter; a variable is not visible in its own initial value or after its block. Each declaration makes a variable of its own. The code of a function reads and writes only variables and parameters that are listed in the definition of the function.", "quantifier": "all function bodies, of any length and nesting, all scopes and pools", "why_tests_cant": "scopes are cloned and pushed at each kind of block separately; a block that leaks its variables shows only in bodies that ought to be rejected or that hide a name", "anchors": ["compiler/src/typechecker.rs: check, check_seq, add_local", "compiler/src/scope.rs: add_local, resolve_reference, resolve_value", "compiler/src/sugar.rs: Desugar::fresh_local", "compiler/src/assembler.rs: Assembler::assemble, from_body"]}
{"id": "C56", "title": "A printed bundle reads back as its declarations", "statement": "The text the decompiler prints for a whole bundle is read by the parser of the compiler, and the declarations read are those of the bundle, in its order: the same classes, structs, enums and global functions, with the same names, visibility and qualifiers, bases, fields with their types and runtime properties, methods with their parameters, return types and bodies (C54), and enum members with their values; nothing is added or lost.", "quantifier": "all bundles, with any number of definitions of any size", "why_tests_cant": "each kind of definition is printed by its own format string and read by its own rule; qualifiers, annotations, types and names combine freely, and one definition that does not read back makes the whole text unreadable", "anchors": ["decompiler/src/print.rs: write_definition, write_function_body, format_type, format_param", "cli/src/main.rs: decompile", "compiler/src/parser.rs: lang::module, source_entry, class, struct_, enum_, function, field, param, annotation, qualifier"]}
{"id": "C57", "title": "The native caller is told what was compiled and where", "statement": "After a compilation without harmful diagnostics the list of source references that the native caller (the game's plugin) walks through has, in the order of the declarations, one reference for every enabled declaration: functions, methods added and replaced, added fields, enums, and for a class its enabled members followed by the class. Each reference tells the kind of the declaration, its full name (the signature for functions), the name of the class it is a member of, whether it is native, and the path and line of the declaration, also when the classes of the bundle were moved at the end.", "quantifier": "for all bundles, all modules that wrap no method, all orders of the hash maps", "why_tests_cant": "references are collected as indices while definitions are still empty, and are translated after classes have been renumbered; a missing or exchanged index shows only in the game plugin", "anchors": ["scc/lib/src/api.rs: scc_source_ref_type, scc_source_ref_is_native, scc_source_ref_name, scc_source_ref_parent_name, scc_source_ref_path, scc_source_ref_line", "compiler/src/unit.rs: SourceRef, define_function, define_field, define_class, define_enum, finish"]}
{"id": "C58", "title": "Decompiling into files puts every definition into its file", "statement": "When a bundle is decompiled into one file for each source file, every class, enum and global function ends in a file: global functions in the file they were compiled from, classes in the files their functions were compiled from, each once per file and in the order of their lines, and enums, native functions and classes without script functions in orphans.script; each file reads back as its definitions (C56). Files are written into the output directory only. Nothing fails halfway because of a definition.", "quantifier": "all bundles, all orders of the hash maps", "why_tests_cant": "the files depend on parents, sources and lines of all definitions of a bundle and on the order of hash maps; bundles with equal or unusual paths are not in any test", "anchors": ["decompiler/src/files.rs: FileIndex::from_pool, FileMap, FileEntry, iter, orphans", "cli/src/main.rs: decompile"]}
{"id": "C59", "title": "Every diagnostic points at the source it is about", "statement": "The place of every diagnostic is the place of a part of the compiled modules. Reporting a diagnostic never aborts: it is written with the path of its file, its line and column, the text of that line, and carets that stand below the characters of the place, one for each, or three if the place goes over several lines.", "quantifier": "all bundles, all modules whose parts have places in the loaded files, all texts with characters of any length, tabs and white space", "why_tests_cant": "spans are handed through every stage of the compiler and through code the compiler makes itself; a place that is lost makes the reporting of an error abort, which shows only with the error that has it", "anchors": ["compiler/src/diagnostics.rs: Diagnostic::display, log, span, from_error", "compiler/src/source_map.rs: Files::lookup, SourceLoc, File::enclosing_line", "compiler/src/unit.rs: compile_and_report, compile_modules, report", "compiler/src/typechecker.rs", "compiler/src/assembler.rs"]}
{"id": "C60", "title": "The launcher recovers the arguments of the game", "statement": "The game starts the compiler with paths in quotes, and Windows takes the quote after a path that ends with a backslash for a part of the path, so that arguments are joined and split in wrong places. From what Windows makes of such a command line the launcher recovers the arguments as they were meant: the same number, in the same order, with the same text. It never fails, and leaves arguments without quotes as they are.", "quantifier": "all command lines, with any number of words and paths of any length, directories with a backslash at their end at any place", "why_tests_cant": "the mending depends on where spaces and backslashes are in all arguments; the tests have one list of paths with one directory", "anchors": ["scc/cli/src/opts.rs: fix_args"]}
{"id": "C61", "title": "Parts are taken only of things that stay, and the checks are exact", "statement": "Taking the field of a structure, the element of an array, or asking an array for its size or contents needs an operand that stays: a variable, a constant, the instance, the field of an object, what a reference refers to, or a field or element of such. A use of anything else is reported, at its place, and nothing but such uses is. A case of a switch is reported exactly if it is not the last one, has statements, and does not end with break or return. The compiled code of an accepted function never applies one of these instructions to anything but an operand that stays.", "quantifier": "all function bodies of any size and nesting, with all kinds of expressions", "why_tests_cant": "the game crashes or reads freed memory when a part of a temporary is taken; whether that can happen depends on how checks, desugaring and code generation combine over all nestings of expressions", "anchors": ["compiler/src/diagnostics/invalid_temp_use.rs", "compiler/src/diagnostics/stmt_fallthrough.rs", "compiler/src/typechecker.rs: is_prvalue", "compiler/src/assembler.rs: Assembler::assemble, assemble_intrinsic", "compiler/src/unit.rs: compile_function"]}
{"id": "C62", "title": "The failure message blames exactly the mods with errors", "statement": "When scripts do not compile, the message the player sees names every mod that has an error once, and no mod that has none or only warnings. The mod is the entry of the scripts directory that the file of the error is in; for files elsewhere it is the name of the file. Below, the message gives for every error the solution that the user hints have for its kind (its code, with SYNTAX_ERR for syntax errors and CTE_ERR for failed conditions), file, text or line: the first that applies, each solution once; if there is none it gives the general advice. Making the message never aborts.", "quantifier": "all loaded files, all errors at places of them, all hint files, all orders of the hash tables", "why_tests_cant": "which mods are named depends on the places of all errors, on positions that run over all loaded files and on hash tables; there is no test of the message", "anchors": ["scc/lib/src/lib.rs: ErrorReport::from_error, Display for ErrorReport", "scc/lib/src/hints.rs: get_by_error", "compiler/src/unit.rs: compile_and_report", "compiler/src/diagnostics.rs: Diagnostic::code"]}
{"id": "C63", "title": "The parser gives every part the place of its text", "statement": "Everything that is read from a file has its place in this file, from one character to another: a name, this, super or null stands at its place; a call, a list, a new object, a string with parts, a statement that ends with a semicolon, a block, an annotation, a class, an enum or an import starts and ends in the text with the words and signs it is written with; a declaration ends with the declared name; every part is inside of what it is a part of. The text at the place of an expression, read on its own, is the expression. So the diagnostics of a compilation of files are all logged and blamed on the right mods, whatever the files contain.", "quantifier": "all files of UTF-8 text of any size and nesting, at any position among the loaded files", "why_tests_cant": "places are computed in every rule of the grammar and through nested merging; the tests compare a few displayed errors, and a place that splits a character aborts the compiler when it is shown", "anchors": ["compiler/src/parser.rs: parse_file, rules pos, expr, stmt, decl, annotation, import, binop, unop", "compiler/src/unit.rs: CompilationUnit::parse, compile_and_report", "core/src/ast.rs: Span::merge, Expr::span"]}
{"id": "C64", "title": "Interpolated strings say what is written, in order", "statement": "An interpolated string evaluates to the text before its first part followed, for each part in order, by the text of the value of the part and the text written after it. Each part is evaluated once, from left to right, and taken as it is at that time, whatever later parts change. Strings and references to strings are used as they are, values of other types are converted. The result is a String. A part without a value is rejected when compiling. Nothing else is done, and if a part does not return then nothing after it is evaluated.", "quantifier": "all interpolated strings with any number of parts, which may contain interpolated strings, array literals and calls with effects; all states of the game", "why_tests_cant": "the string becomes nested calls of the concatenation whose arguments are evaluated in the order of the nesting; the tests compare the generated code of one example and run nothing", "anchors": ["compiler/src/sugar.rs: Desugar::on_interpolated_string", "compiler/src/transform.rs: ExprTransformer"]}
{"id": "C65", "title": "Exactly the scripts of the given paths are loaded", "statement": "The files that are compiled are exactly those at the given paths: a file that is named is loaded whatever it is called; of a directory, every file anywhere in it with a name that ends with .reds is loaded and nothing else, except those of excluded mods, a mod being the entry of the directory, with .reds left off. Each is loaded with its contents, under its path, once, and files of earlier paths come before those of later ones. Loading fails exactly if one of these files cannot be read or is not UTF-8. Paths and links that lead nowhere are skipped, and if any mod is excluded so are mods whose name is not UTF-8.", "quantifier": "all file trees of any depth and size with links, unreadable files and any names; all lists of paths and of excluded mods", "why_tests_cant": "which files are found depends on the whole tree, on how paths without their extension are compared and on every combination of paths; the tests do not read directories", "anchors": ["compiler/src/source_map.rs: Files::from_dirs, Files::from_files, filtered_file_iter, SourceFilter::apply"]}
{"id": "C66", "title": "Number literals keep their value", "statement": "An integer literal, digits with an optional minus sign and the suffix l, u or ul, is read as the integer the digits stand for, of the type the suffix says (Int64, Uint32, Uint64, without one Int32), and is rejected exactly if this type does not have it or it is unsigned and has a sign. Where another type is needed, an Int32 literal becomes a Float, Double or Int64, a Uint32 literal a Uint64 and a Float literal a Double, always with the same value, zeros with their sign, infinities and NaN included; only an Int32 literal as a Float becomes the nearest float (the even one of two), which is the same number up to 2^24. All other literals stay as they are. The compiled code is the one instruction that loads this constant.", "quantifier": "all integer literals with any number of digits; all constants and all expected types", "why_tests_cant": "there are 2^32 literals per type and the conversions are done on bit patterns with rounding; the tests have a handful of literals", "anchors": ["compiler/src/parser.rs: rules number, constant", "compiler/src/typechecker.rs: TypeChecker::check (Expr::Constant)", "compiler/src/assembler.rs: Assembler::assemble (Expr::Constant)"]}
{"id": "C67", "title": "The compile command writes what it compiled, and only that", "statement": "The command compile writes the output file exactly if the script cache can be loaded, the script files can be read, and they compile without errors (and the file can be created). It then logs every warning of the compilation, ends with success, and what it has written is a script cache that loads, with the header of the old one and the pool that was compiled: all strings and definitions, in order. This holds if the strings contain no character 0 and numbers, names and code of the definitions fit the format. In all other cases the output file stays as it was; it is only spoiled if a definition does not fit the format. The command lint logs the same and never writes.", "quantifier": "all contents of the cache file, all directories of scripts, all scripts and all orders of the hash tables", "why_tests_cant": "it takes loading, reading, parsing, checking, code generation, reporting and saving together, each over inputs of any size; the tests run none of the commands", "anchors": ["cli/src/main.rs: compile, lint, load_bundle", "compiler/src/unit.rs: compile_files, compile_and_report", "core/src/bundle.rs: ScriptBundle::load, ScriptBundle::save", "compiler/src/source_map.rs: Files::from_dirs"]}
{"id": "C68", "title": "The game's compiler and the command line tool build the same", "statement": "For the same script cache and scripts, the compiler that the game starts (scc) and the command compile build the same definitions: whatever the tool compiles scc compiles too, to the same pool and source references, and what scc writes has all strings and definitions of what the tool writes, in order, and besides only its mark (a name and an empty enum); it logs no more than the tool. It returns success exactly if it has written its output, and otherwise leaves the output as it was, unless a definition does not fit the format. The other way around, if scc compiles something that the tool does not, the tool has reported a case of a switch that falls through, or a temporary value used in place of a variable. A cache with the mark is refused by scc for any scripts and nothing is written, and so is what scc wrote, if the scripts do not contain the name of the mark themselves.", "quantifier": "all contents of the cache file, all directories of scripts, all scripts and all orders of the hash tables", "why_tests_cant": "it compares two programs over all inputs; the tests run neither of them on the same input", "anchors": ["scc/lib/src/lib.rs: try_compile_files, add_redscript_signature_def, check_for_redscript_signature_def", "cli/src/main.rs: compile", "compiler/src/unit.rs: CompilationUnit::new, new_with_defaults, compile_and_report"]}
{"id": "C69", "title": "Loading any file ends with a bundle or an error", "statement": "Loading any bytes as a script bundle ends, and gives either a bundle or an error; whatever the bytes are, it does not abort the program.", "quantifier": "all byte strings", "why_tests_cant": "a script cache can be truncated, altered or of another game version in any way; tests load files that were saved", "anchors": ["core/src/bundle.rs: ScriptBundle::load, ConstantPool::decode, DefinitionType::decode", "core/src/definition.rs: Definition::decode, Type::decode, Visibility::decode", "core/src/decode.rs", "core/src/bytecode.rs: Code::decode"]}
{"id": "C70", "title": "Text literals stand for the text that they spell", "statement": "A text in quotes is read exactly if it is spelled with characters other than quote and backslash, with one of the escapes for line feed, carriage return, tab, quotes and backslash, or with the number of a character in one to six hexadecimal digits; it is then read as that text, ends at the first quote that is not escaped, and the letter in front (n, r, t or none) says whether it is a name, a resource, a TweakDB id or a string. It is compiled to one instruction that loads exactly this text from the table of its kind, whatever texts are added before or after, and changes no other table.", "quantifier": "all texts of any length with any mixture of escapes, all four kinds, all states of the tables", "why_tests_cant": "the texts are unbounded and the reader tries the escapes in an order where one could hide another; the tests have a few literals", "anchors": ["compiler/src/parser.rs: rules escaped_char, string_contents, escaped_string, literal_type, constant", "compiler/src/assembler.rs: Assembler::assemble (Expr::Constant)", "core/src/bundle.rs: Names::add"]}
{"id": "C71", "title": "Blanks and comments stand for nothing, and end names", "statement": "Wherever the grammar allows blanks, any mixture of spaces, tabs, line ends, comments between /* and */ (with comments inside) and comments after // up to the end of the line can be written, and what follows is read the same; nothing else is skipped. A comment has one end; one without an end is none. Names are read as far as letters, digits and underscores go, a keyword is read only as a whole word, and blanks and comments end both.", "quantifier": "all texts; comments of any length, depth of nesting and number", "why_tests_cant": "comments nest to any depth and their marks can share characters; the tests have a few comments", "anchors": ["compiler/src/parser.rs: rules _, comment, comment_content, line_comment, ident, keyword"]}
{"id": "C72", "title": "Types are read as they are written", "statement": "A type that is written as a name, or as a name and types between < and > with commas between them, at any depth and with blanks and comments after < and after commas and before >, is read as that type, if neither its name nor its arguments go on after it; nothing else is read as a type, and no text stands for two types.", "quantifier": "all types of any depth and number of arguments, all blanks and comments, all texts", "why_tests_cant": "types nest without bound and < is also an operator; the tests have a few types", "anchors": ["compiler/src/parser.rs: rules type_, type_args, commasep, ident", "core/src/ast.rs: TypeName::new"]}
{"id": "C73", "title": "Parameters are read as they are written", "statement": "A parameter of a function that is written as qualifiers with blanks or comments after each, a name that is no qualifier, a colon and a type is read with these qualifiers in their order, this name and this type; nothing else is read as a parameter.", "quantifier": "all numbers and orders of qualifiers, all names, all types of any depth, all blanks and comments", "why_tests_cant": "qualifiers, names, blanks and types can be combined without bound, and a name can begin like a qualifier; the tests have a few functions", "anchors": ["compiler/src/parser.rs: rules param, qualifier, qualifiers, let_type, type_, keyword, ident"]}
{"id": "C74", "title": "Imports are read as they are written", "statement": "An import that is written as the word import and a path of names with dots between them, with nothing, a dot and a star, or a dot and names in braces after it, is read as an import of that item, of everything in that module, or of those names from that module, whatever blanks and comments stand where they may; a module's name is read as the path that is written.", "quantifier": "all paths and lists of names of any length, all blanks and comments, all following text that does not go on with the path", "why_tests_cant": "the three forms share their beginning and are told apart only after a path of any length with any blanks and comments; the tests have a few imports", "anchors": ["compiler/src/parser.rs: rules import, module_path, dotsep, commasep, keyword, ident"]}
{"id": "C75", "title": "Enums are read as they are written", "statement": "An enum that is written as qualifiers, the word enum, a name and members in braces is read with these qualifiers, this name and these members in their order, each with the integer that its digits, sign and suffix spell, with or without a comma after the last, whatever blanks and comments stand where they may.", "quantifier": "all numbers of members, all names, all integers of 32 bits and, with the suffix l, of 64 bits, all qualifiers, blanks and comments", "why_tests_cant": "members, values and blanks can be combined without bound; the tests have a few enums with small values", "anchors": ["compiler/src/parser.rs: rules enum_, enum_member, decl, number, commasep, qualifiers, keyword, ident"]}
{"id": "C76", "title": "Fields and functions without a body are read as they are written", "statement": "A field that is written as qualifiers, the word let, a name, a colon, a type and a semicolon is read with these qualifiers, this name and this type and no value. A function that is written as qualifiers, the word func, a name, parameters in parentheses, perhaps an arrow and a type, and a semicolon is read with these qualifiers, this name, these parameters in their order and this type, and no body. Blanks and comments may stand where the grammar has room for them.", "quantifier": "all numbers of parameters and qualifiers, all names, all types of any depth, all blanks and comments", "why_tests_cant": "parameters, types, qualifiers and blanks can be combined without bound; the tests have a few declarations", "anchors": ["compiler/src/parser.rs: rules field, function, param, decl, let_type, func_type, qualifiers, commasep"]}
