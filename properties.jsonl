{"id": "C01", "title": "String escaping round-trips", "statement": "Escaping any string and unescaping the result gives back exactly the original string; the escaped text never contains a raw quote, tab, carriage return or newline, so it can be embedded between quotes. Unescaping fails exactly on text with a backslash that is not followed by one of the known escape letters.", "quantifier": "every string (any sequence of Unicode characters, any length)", "why_tests_cant": "the set of strings is infinite and adjacency of backslashes and escape letters creates context-dependent cases", "anchors": ["llrl0/src/string.rs: escape, unescape, escape_char, unescape_char"]}
{"id": "C02", "title": "Lexing is total and tiles the source", "statement": "Lexing any text finishes without panicking, and the produced tokens partition the text: the first starts at offset 0, each one starts where the previous one ended, none is empty, and the last one ends at the end of the text. Line and column of every token are those of its offset in the text.", "quantifier": "every source text", "why_tests_cant": "the claim is about arbitrary text including malformed literals, unterminated strings, and stray characters", "anchors": ["llrl0/src/lexer.rs: Lexer::next, Eat", "llrl0/src/source_loc/location.rs: Location::eat"]}
{"id": "C03", "title": "String and character literals lex to what they denote", "statement": "For every string s, the text quote + escape(s) + quote lexes to the single token String(s); for every character c, the text #\\ followed by the escaped c lexes to the single token Char(c).", "quantifier": "every string and every character", "why_tests_cant": "quantifies over all strings; the lexer and the unescaper scan the text independently and must agree on where the literal ends", "anchors": ["llrl0/src/lexer.rs: eat_string, eat_char", "llrl0/src/string.rs"]}
{"id": "C04", "title": "Parsing is total, recovers from errors and accounts for every token", "statement": "Parsing any token sequence terminates without panicking; if no error is reported the whole sequence has been consumed and it is exactly a sequence of well-formed S-expressions; if the sequence is not well-formed at least one error is reported.", "quantifier": "every source text, and every sequence of tokens without the internal end-of-file marker", "why_tests_cant": "termination of error recovery and completeness of error reporting concern all malformed inputs", "anchors": ["llrl0/src/parser.rs: Parser, parse_with_error_swallowed", "llrl0/src/parser/grammar.rs", "llrl0/src/parser/primitive.rs: RecoverableSeq"]}
{"id": "C05", "title": "Printing then parsing an S-expression gives it back", "statement": "For every S-expression in the printable fragment, lexing and parsing its printed form gives the same S-expression; the printed sugar (quote, access, annotate, ...) denotes the same list form it was printed from.", "quantifier": "every S-expression tree", "why_tests_cant": "tree-shaped input of unbounded depth; sugared forms nest and their token boundaries interact", "anchors": ["llrl0/src/sexp.rs: Display for Sexp", "llrl0/src/parser/grammar.rs"]}
{"id": "C06", "title": "Module path parsing and printing agree", "statement": "Every path accepted by the parser prints back to the text it was parsed from, and every printed path parses back to the same path (up to an explicit /prelude, which is dropped); malformed texts are rejected; distinct paths print differently.", "quantifier": "every path text and every path value", "why_tests_cant": "unbounded number of segments and arbitrary characters", "anchors": ["llrl0/src/path.rs: Path, PackageName, ModuleName"]}
{"id": "C07", "title": "Interned values are equal exactly when their contents are equal", "statement": "Interning two values yields equal handles if and only if the values are equal, in any history of intern operations, and a handle always dereferences to the value it was created from.", "quantifier": "every history of intern requests", "why_tests_cant": "it is a property of arbitrary histories, including interleavings of different values", "anchors": ["llrl0/src/interning.rs"]}
{"id": "C08", "title": "Dependency sorting yields strongly connected components in dependency order", "statement": "Sorting items with distinct keys by their dependencies returns every item exactly once, grouped exactly by mutual reachability, and every group comes after all groups it depends on; dependencies on absent keys are ignored.", "quantifier": "every finite dependency graph given as a list of (key, dependency list) pairs", "why_tests_cant": "correctness of Tarjan's algorithm over all graphs", "anchors": ["llrl0/src/topological_sort.rs: run, State::visit"]}
{"id": "C09", "title": "Kind unification is sound, complete and terminating", "statement": "Unifying two kinds under any reachable context succeeds exactly when there is an assignment of the unresolved variables making them equal; on success the context makes both kinds equal and every solution of the old constraints and the new equation remains a solution; contexts stay acyclic so resolving a kind terminates.", "quantifier": "every reachable unification context and every pair of kinds", "why_tests_cant": "unbounded histories of unifications and unbounded kind trees", "anchors": ["llrl0/src/unification/kind.rs: Context::unify, occurs_check, bind"]}
{"id": "C10", "title": "Type unification is sound", "statement": "If unifying two types succeeds, the two types are equal after substituting the resulting bindings; previously established equalities are preserved; a cyclic binding is rejected with the occurs-check error and resolving any type terminates.", "quantifier": "every reachable type-inference context and every pair of types", "why_tests_cant": "unbounded histories and type trees; variable levels and generic types interact", "anchors": ["llrl0/src/unification/types.rs: Context::unify, bind, occurs_check, adjust_level"]}
{"id": "C11", "title": "Exhaustiveness and usefulness checks agree with matching", "statement": "A match is reported exhaustive exactly when every well-typed value is matched by some clause, and a clause is reported useless exactly when every value it matches is matched by an earlier clause.", "quantifier": "every list of patterns over every set of data types", "why_tests_cant": "pattern matrices and values are unbounded; the specification quantifies over all values", "anchors": ["llrl0/src/pattern_matching/matrix.rs", "llrl0/src/pattern_matching/pattern.rs", "llrl0/src/pattern_matching/row.rs"]}
{"id": "C12", "title": "Preprocessor bindings are lexically scoped", "statement": "Preprocessing a sequence of forms replaces $-bindings according to lexical scope: outside the body of a $let / $for the bindings are as they were before, nested bindings shadow outer ones, and text without preprocessor forms or bound names is unchanged.", "quantifier": "every S-expression and every set of definitions", "why_tests_cant": "unbounded nesting of scopes", "anchors": ["llrl0/src/preprocess.rs"]}
{"id": "C13", "title": "Local scopes restore the enclosing bindings", "statement": "After leaving a scope every name means what it meant before entering it, and within nested scopes a name means the innermost definition; redefining a name in one scope is reported.", "quantifier": "every sequence of enter / define / leave operations", "why_tests_cant": "unbounded histories of scopes", "anchors": ["llrl0/src/module/scope.rs: LocalScope, TopLevel"]}
{"id": "C14", "title": "Imports bring in exactly the selected exports", "statement": "An import declaration binds exactly the exported names it selects (exact names, wildcards, renamings) to the constructs exported by the target module, reports names that are not exported, and reports conflicting bindings; wildcard matching takes the text matched by the wildcard.", "quantifier": "every export table and every import target list", "why_tests_cant": "wildcards range over arbitrary strings; tables are unbounded", "anchors": ["llrl0/src/module/sema/importer.rs", "llrl0/src/module/sema/exporter.rs", "llrl0/src/module/scope.rs"]}
{"id": "C15", "title": "Parallel module building respects dependencies under every schedule", "statement": "Whatever the interleaving of worker threads, each module is built at most once, only after all its dependencies were built successfully; when all threads finish, a module has a success or its own error exactly when all its dependencies succeeded, and otherwise it is reported as not built because a dependency failed; the outcome does not depend on the schedule.", "quantifier": "every acyclic module graph and every interleaving of worker steps", "why_tests_cant": "all interleavings of unboundedly many threads", "anchors": ["llrl0/src/module/parallel.rs: build, release_dependency_one"]}
{"id": "C16", "title": "Source collection finds exactly the reachable modules", "statement": "Starting from any root modules, collection under any interleaving terminates with exactly the modules reachable through imports, loading each source at most once.", "quantifier": "every import graph and every interleaving of collection tasks", "why_tests_cant": "all interleavings", "anchors": ["llrl0/src/source/collector.rs", "llrl0/src/source.rs"]}
{"id": "C17", "title": "Match expansion selects the first matching clause", "statement": "The code generated for a match expression evaluates to the body of the first clause whose pattern matches the value, with the pattern variables bound to the corresponding parts of the value, and never reads a field of a constructor that has not been established.", "quantifier": "every list of clauses and every value", "why_tests_cant": "unbounded pattern nesting and clause lists; optimisations skip already-determined tests", "anchors": ["llrl0/src/lowering/branch_expander.rs: Expander, MatchProgress, PatPart"]}
{"id": "C18", "title": "Data representation keeps constructors distinguishable", "statement": "The lowered representation of every data type can represent every constructor application: building a value and matching it against a constructor pattern succeeds exactly for the constructor it was built with and gives back its fields; the tag type is large enough for the number of constructors.", "quantifier": "every data type declaration and every value of it", "why_tests_cant": "unbounded number of constructors and fields; several representation strategies", "anchors": ["llrl0/src/lowering/data_expander.rs", "llrl0/src/lowering/ir/rt.rs"]}
{"id": "C19", "title": "Memory layouts keep fields apart, aligned and in bounds", "statement": "In the layout of every type the size is a multiple of the alignment, the fields of a structure are aligned, pairwise disjoint and inside the structure, every alternative of a union fits, and the argument classification covers every eightbyte of the value.", "quantifier": "every tree of field layouts", "why_tests_cant": "arbitrary nesting and field lists", "anchors": ["llrl0/src/backend/native/mem_layout.rs: Layout::product, Layout::sum, LayoutResolver"]}
{"id": "C20", "title": "Stack frames never overlap live variables", "statement": "In the stack frame computed for a function, two variables whose scopes overlap occupy disjoint stack ranges, all of them lie in the reserved area, and arguments lie above the saved frame pointer.", "quantifier": "every function body", "why_tests_cant": "arbitrary nesting of lets and continuations", "anchors": ["llrl0/src/backend/chibi/codegen/stack_frame.rs: StackFrame, StackFrameBuilder"]}
{"id": "C21", "title": "Encoded memory operands denote the intended address", "statement": "Decoding the prefix, ModRM, SIB and displacement bytes emitted for any register or memory operand according to the x86-64 rules gives back exactly the operand: base, index, scale, displacement and register.", "quantifier": "every register, base, index, scale and displacement accepted by the operand constructors", "why_tests_cant": "the product of operand forms and 32-bit displacements is too large to enumerate; special registers (rsp, rbp, r12, r13) have exceptions", "anchors": ["xten0/src/asm/encoding.rs", "xten0/src/asm/operand.rs: EncodedAddress"]}
{"id": "C22", "title": "Every label use is resolved or relocated", "statement": "In the object produced by the assembler, for every use of a label the bytes at the use either already contain S + A - P for the definition of the label or carry a relocation that yields it once the section addresses are fixed; all other bytes are what the writer emitted.", "quantifier": "every program of writer operations", "why_tests_cant": "arbitrary interleavings of definitions and uses in several sections", "anchors": ["xten0/src/asm/writer.rs: Writer::produce, define, use_relative", "xten0/src/asm/obj.rs"]}
{"id": "C23", "title": "JIT segments never hand out overlapping or moving memory", "statement": "Every allocation in a JIT segment is aligned, inside a mapped region and disjoint from every other allocation, for any sequence of requests.", "quantifier": "every sequence of allocation requests", "why_tests_cant": "arbitrary allocation histories", "anchors": ["xten0/src/jit/segment.rs", "xten0/src/jit/mmap.rs"]}
{"id": "C24", "title": "JIT relocations are correct or rejected", "statement": "After an object is added to the JIT, every relocated location contains the value required by its relocation type; an offset that does not fit its field is rejected with an error.", "quantifier": "every object and every placement of its sections", "why_tests_cant": "the range of addresses is 64-bit", "anchors": ["xten0/src/jit.rs: Linker::relocate, Engine::add_object"]}
{"id": "C25", "title": "ELF objects read back as written", "statement": "A reader following the ELF64 format recovers from the written file exactly the sections, their contents, the symbols (locals first) with their names, values and sections, and the relocations that were added.", "quantifier": "every set of sections, symbols and relocations", "why_tests_cant": "unbounded tables; offsets computed from cumulative sizes", "anchors": ["xten0/src/elf/format.rs", "xten0/src/elf/adapter.rs"]}
{"id": "C26", "title": "UTF-8 coding round-trips", "statement": "Encoding any Unicode scalar value and decoding the bytes gives back the value; the decoder accepts exactly the well-formed UTF-8 sequences; encode rejects surrogates and values out of range.", "quantifier": "every Unicode scalar value and every byte sequence", "why_tests_cant": "decoding is a state machine over arbitrary byte sequences", "anchors": ["std/internal/utf-8.llrl", "std/internal/string-text.llrl: string/valid-sequence?"]}
{"id": "C27", "title": "Mutable ordered map behaves as a finite map", "statement": "Any sequence of insert, remove and lookup operations on OrdMap gives the same answers as a mathematical finite map, iteration yields the bindings in increasing key order, and the tree stays balanced with node sizes in range (no assertion fails).", "quantifier": "every operation sequence", "why_tests_cant": "B-tree rebalancing depends on arbitrary histories", "anchors": ["std/ord-map.llrl"]}
{"id": "C28", "title": "Persistent ordered map behaves as a finite map", "statement": "insert, remove, lookup, min, max, union and intersection of the persistent OrdMap agree with a mathematical finite map, old versions are unaffected, the internal assertions never fail and the height is logarithmic.", "quantifier": "every operation sequence", "why_tests_cant": "red-black rebalancing depends on arbitrary histories", "anchors": ["std/persistent/ord-map.llrl"]}
{"id": "C29", "title": "Hash map behaves as a finite map", "statement": "Any sequence of insert, remove, lookup, clear and reserve operations on HashMap answers as a mathematical finite map whatever the hash function; lookups terminate; the table never becomes full.", "quantifier": "every operation sequence and every hash function", "why_tests_cant": "probe sequences depend on the whole history and on hash collisions", "anchors": ["std/hash-map.llrl"]}
{"id": "C30", "title": "Persistent hash map behaves as a finite map", "statement": "insert, remove and lookup on the persistent HashMap agree with a finite map whatever the hash function (including full 64-bit collisions), the length is the number of bindings, and iteration yields every binding exactly once.", "quantifier": "every operation sequence and every hash function", "why_tests_cant": "trie shape depends on hashes and history", "anchors": ["std/persistent/hash-map.llrl"]}
{"id": "C31", "title": "Streaming hash depends only on the bytes", "statement": "The digest of a byte string is the same however the bytes are split over write calls, and it is the XXH64 digest of the bytes for the hasher's seed.", "quantifier": "every byte string and every way of splitting it", "why_tests_cant": "unbounded inputs and splits around the 32-byte block boundary", "anchors": ["std/xxhash.llrl: state/update!, state/digest"]}
{"id": "C32", "title": "Vectors behave as sequences", "statement": "Any sequence of vector operations (push, pop, insert, remove, swap-remove, truncate, append, consume, reserve) behaves as the same operations on a mathematical sequence, never loads an uninitialised slot, and fails exactly on out-of-range indices.", "quantifier": "every operation sequence", "why_tests_cant": "growth and shifting depend on arbitrary histories", "anchors": ["std/internal/array-vector.llrl"]}
{"id": "C33", "title": "Substring search, splitting and replacing are correct", "statement": "find? returns the first occurrence; split by a separator and join with it give back the string; replace replaces exactly the non-overlapping occurrences from the left; results are valid UTF-8.", "quantifier": "every pair of strings", "why_tests_cant": "unbounded strings with self-overlapping patterns", "anchors": ["std/internal/string-text.llrl"]}
{"id": "C34", "title": "File path operations are consistent", "statement": "components, base-name, dir-name, extension, with-extension, join and canonicalize satisfy the usual laws (e.g. joining dir-name and base-name denotes the same file; canonicalize yields an absolute path without . and .. components and is idempotent).", "quantifier": "every path string", "why_tests_cant": "arbitrary strings with repeated separators and dots", "anchors": ["std/io/path.llrl"]}
{"id": "C35", "title": "Source locations are unique and resolvable", "statement": "Every location issued during parsing of a source resolves to exactly the range it was issued for, and locations issued by different locators never coincide.", "quantifier": "every history of issue operations", "why_tests_cant": "arbitrary histories", "anchors": ["llrl0/src/source_loc.rs", "llrl0/src/parser.rs: capture_source_location"]}
{"id": "C36", "title": "Promoting allocations to the stack is safe", "statement": "A heap allocation is replaced by a stack allocation only when the allocated object cannot be referenced after the binding that owns it ends.", "quantifier": "every lowered expression", "why_tests_cant": "unbounded expression trees", "anchors": ["llrl0/src/lowering/heap2stack.rs"]}
{"id": "C37", "title": "Expressions of the intermediate representation have the type they are given", "statement": "The result type computed for every operation of the intermediate representation is the type of the value the operation produces; merging of nested let and sequence nodes by the smart constructors does not change evaluation.", "quantifier": "every expression of the intermediate representation", "why_tests_cant": "all operators and unbounded expression trees", "anchors": ["llrl0/src/lowering/ir/rt.rs"]}
{"id": "C38", "title": "S-expression matching recognises exactly its pattern language", "statement": "Matching an S-expression against a matcher succeeds exactly on the forms described by the matcher, returns the corresponding sub-expressions, and reports an error otherwise.", "quantifier": "every S-expression", "why_tests_cant": "unbounded lists and nesting", "anchors": ["llrl0/src/sexp/matcher.rs", "llrl0/src/sexp.rs: list_like"]}
{"id": "C39", "title": "Distinct modules come from distinct files", "statement": "For a package loaded from the file system two different module paths are loaded from two different files.", "quantifier": "every pair of module paths", "why_tests_cant": "paths are arbitrary strings", "anchors": ["llrl0/src/source/loader.rs", "llrl0/src/path.rs"]}
{"id": "C40", "title": "Calls find their arguments and their result", "statement": "The stack is aligned to 16 bytes at every call, the callee finds each argument in the place where the caller put it, distinct arguments never share a register or a stack slot, and the place for the result overlaps no argument.", "quantifier": "every list of argument layouts, result layout and stack depth, for both calling conventions", "why_tests_cant": "unbounded numbers and sizes of arguments", "anchors": ["llrl0/src/backend/chibi/codegen/call_frame.rs", "llrl0/src/backend/chibi/codegen/reg_assign.rs", "llrl0/src/backend/chibi/codegen/stack_inst.rs"]}
{"id": "C41", "title": "Machine code is unambiguous", "statement": "If the bytes emitted for two instructions begin alike, whatever bytes follow them, then the two are the same operation on the same operands and have the same bytes.", "quantifier": "every pair of instructions of the assembler, all operands and all following bytes", "why_tests_cant": "1366 instruction forms with unbounded operands and following bytes", "anchors": ["xten0/src/asm/inst.rs", "xten0/src/asm/encoding.rs", "xtencg/supported-instructions.md"]}
{"id": "C42", "title": "Instructions written with a label act on that label", "statement": "Whatever addresses the sections and symbols are given, an instruction written with a label in place of an operand is, in memory, that instruction with the operand that leads from its end to the label (or to the entry of the label in the table of addresses).", "quantifier": "every program of writer operations, every placement of the sections and symbols", "why_tests_cant": "unbounded distances, all placements and all registers", "anchors": ["xten0/src/asm/writer.rs: WriteInst for Callq, Jmpq, conditional jumps, Movq and Leaq with Label, AddressTable and Short"]}
{"id": "C43", "title": "Equal keys have equal hashes", "statement": "Whatever a hasher was used for before, two values that compare equal get the same hash from it, and comparing equal is reflexive, symmetric and transitive: values of every type with the library's or derived Eq and Hash instances can be keys of hash maps.", "quantifier": "every seed, every earlier use of the hasher, all values of integers, characters, pointers, strings, arrays, vectors, tuples, library sums and derived types, to any depth", "why_tests_cant": "unboundedly deep values and all pairs of equal ones", "anchors": ["std/hash.llrl: hash, Hash instances, derive/Hash", "std/eq.llrl: Eq instances, derive/Eq", "std/tuple.llrl", "std/xxhash.llrl: Hasher.XxHasher"]}
{"id": "C44", "title": "Values keep their bytes wherever they are moved", "statement": "Pushing, popping, loading, storing, discarding and sliding a value in the generated code moves exactly its bytes, whatever its size and class, writes no other memory, leaves the other registers alone and changes the stack pointer as the generator records; taking an element of a structure gives the bytes of the element, and reinterpreting a value keeps the bytes the two types share.", "quantifier": "every type layout, every value, every machine state and address", "why_tests_cant": "all sizes and classes of layouts, all machine states", "anchors": ["llrl0/src/backend/chibi/codegen/stack_inst.rs", "llrl0/src/backend/chibi/codegen/reg_assign.rs", "llrl0/src/backend/chibi/codegen.rs: StructElem, Reinterpret"]}
{"id": "C45", "title": "The code of a function does what the function means", "statement": "Calling the machine code generated for a function with its arguments returns to the caller with the bytes of the value that the body evaluates to, delivered in registers or in memory as the convention says, with the heap the evaluation leaves behind, the caller's registers restored and the caller's part of the stack untouched.", "quantifier": "every program, function, argument, heap and machine state at entry, for every terminating evaluation", "why_tests_cant": "unbounded programs, recursion depths and heaps", "anchors": ["llrl0/src/backend/chibi/codegen.rs: FunctionCodegen::run, prologue, epilogue, eval, eval_call, eval_cont_call, eval_if, eval_while, eval_let_var, eval_let_cont, eval_unary, eval_binary, eval_nullary, eval_const", "llrl0/src/backend/chibi/codegen/call_frame.rs", "llrl0/src/backend/chibi/codegen/stack_frame.rs", "llrl0/src/backend/chibi/codegen/stack_inst.rs"]}
{"id": "C46", "title": "Modules are initialized once, after the modules they import", "statement": "The initialization expressions that end up in the program are those of the modules that an entry point needs, each exactly once; the expressions of a module keep their order, and each of them runs after everything that the modules imported before it need. When requests arrive in between, and how many entry points there are, makes no difference.", "quantifier": "every set of modules without cyclic imports, every order of arrival in which modules come after those they need, and every schedule of the requests", "why_tests_cant": "import graphs and schedules are unbounded; tests fix a few programs and one schedule", "anchors": ["llrl0/src/lowering.rs: process_requests, MainStatements", "llrl0/src/module/sema/importer.rs: run", "llrl0/src/ast/expr.rs: InitExpr"]}
{"id": "C47", "title": "S-expressions keep their contents on the way to and from compiled code", "statement": "A macro that is called gets a pointer to memory in which the values, laid out as the type Sexp of the language is laid out, are those of the S-expression of the compiler, in memory of its own; what the macro answers is read as exactly the S-expression or the message it left in memory. An S-expression that is a constant of the program is in the read-only data of the linked object, wherever that is loaded, with every reference pointing to its part.", "quantifier": "every S-expression of any depth and length, every state of the heap, every sound allocator, every object the constant is written into and every place where it is loaded", "why_tests_cant": "S-expressions, heaps and objects are unbounded; a wrong offset shows only for some shape and placement", "anchors": ["llrl0/src/backend/native/data.rs: NativeValue, Embed, Rep, NativeSexp, NativeSyntax, NativeString, NativeResult", "llrl0/src/backend/native/calling.rs: native_macro", "llrl0/src/ast/builtin.rs: Sexp, SyntaxBody", "llrl0/src/backend/chibi/codegen.rs: embed_rodata", "llrl0/src/ast/builtin.llrl: Sexp, Result"]}
{"id": "C48", "title": "Local functions mean the same once they are functions of the program", "statement": "The compiler turns every local function into a function of the program that gets the variables it captures in an environment. This comes to an end for every program, leaves no local function, and keeps what the functions of the program take and give. A call that comes to an end before the conversion, with some effects on memory and some result, a return, a jump or a panic, comes to the same end after it; where a value is a function, the function that takes its place does the same when it is called.", "quantifier": "every program whose variables have ids of their own and whose local functions, nested and mutually recursive in any way, have no type parameters of their own; all arguments, states of memory and evaluations that end; all operations that do not look into functions", "why_tests_cant": "programs, nesting and evaluations are unbounded; a wrong capture shows only for some nesting of functions, and in some calls", "anchors": ["llrl0/src/lowering/normalizer.rs: Normalizer, ClosureConversion", "llrl0/src/lowering/ir/traverser.rs: captured_vars", "llrl0/src/lowering/ir/rewriter.rs: Rewrite", "llrl0/src/lowering/context.rs: get_processing_def", "llrl0/src/lowering/ir/rt.rs: let_var"]}
{"id": "C49", "title": "A call of a transparent function does what its body does", "statement": "A call of a function declared with transparent-function is replaced with the body of the function, in which the arguments stand for the parameters and the variables have ids that nothing else has. The replacement comes to an end, refers to nothing but the variables of the call, and does what the call did: the same effects, and the same result.", "quantifier": "every transparent function and every call of it, in every state of memory and with all values of the variables", "why_tests_cant": "bodies, nesting of calls and states are unbounded; a captured or repeated variable shows only for some body and some arguments", "anchors": ["llrl0/src/lowering/normalizer.rs: Normalizer::after_rt, call_transparent", "llrl0/src/lowering/ir/rewriter.rs: replace_rt, realloc_rts, ReallocRts", "llrl0/src/syntax/decl.rs: Function"]}
{"id": "C50", "title": "Kinds are inferred whenever there are some, and are the most general ones", "statement": "Kind inference comes to an end for every module. If it succeeds, every class, type constructor, function, method, instance and type parameter has been given one complete kind, every type of a value has kind Type under these kinds, every class and type constructor is applied to arguments of the kinds it takes, the kinds written on parameters are kept, and type parameters have kinds built from Type. If it reports an error, the group of declarations it has come to cannot be given kinds. What the declarations leave open, and nothing else, is Type. The order in which independent declarations are looked at makes no difference.", "quantifier": "every list of groups of declarations, with any kinds of the constructs of other modules, and every order in which declarations follow those they use", "why_tests_cant": "types, declarations and orders are unbounded; the tables are hash maps, whose order differs from run to run", "anchors": ["llrl0/src/module/sema/kind_inference.rs: run, Context, Infer", "llrl0/src/ast/kind.rs: Kind", "llrl0/src/unification/kind.rs: Context", "llrl0/src/topological_sort.rs"]}
{"id": "C51", "title": "Evidence for class constraints is evidence, and is found when there is some", "statement": "Looking for evidence for a class constraint always comes to an end. What is found is evidence: it names a constraint that is assumed and the superclasses to follow from it, or an instance with type arguments of the right kinds that make its target the constraint, together with evidence for everything the instance asks for; and it stays evidence whatever the types not known yet turn out to be. If no instance is found for a constraint on known types, the constraint does not follow from what is assumed. An overlap of instances is reported exactly when two instances of a class give the same constraint. Every instance has evidence for the superclasses of its class. Circular class hierarchies are rejected.", "quantifier": "every set of classes and instances, all constraints assumed and asked for, and every state of the type variables", "why_tests_cant": "the search recurses over instances and superclasses without bound, and the evidence must hold for all types that are not known yet", "anchors": ["llrl0/src/module/sema/type_inference.rs: install_premise_constraints, build_satisfaction, ensure_overlap_checked, verify_classes_hierarchy, infer_instance_satisfaction", "llrl0/src/module/sema/type_inference/unification.rs: Premise, Satisfaction, InstanceCon, ClassCon", "llrl0/src/module/meaning.rs: AvailableInstances"]}
{"id": "C52", "title": "Every name stands for the innermost declaration in whose scope it is", "statement": "Resolving the names of a module always comes to an end, and succeeds exactly if, by the rules of scope, every name written stands for a construct of the sort needed where it is written. Then the name has been replaced by the innermost declaration around it, and no unresolved name is left: parameters and variables of patterns hide outer names of any sort, the functions of a let are seen by all its definitions, its variables by its body only, type parameters by what they are declared for. No scope declares a name twice. Every instance gives each method of its class at most once, with the arity of the class, and all that have no default; a sealed class has instances in its own module only. The order in which declarations are looked at makes no difference to the success. An error reports something really wrong: the name, the place and the sort it names are those of a use that the rules do not allow, or the two declarations it shows are in one scope and have the same name.", "quantifier": "every module, every table of imported and declared names, and every order of the hash maps involved", "why_tests_cant": "expressions nest without bound, and the scopes share one table that is changed and restored on the way; the tables are hash maps, whose order differs from run to run", "anchors": ["llrl0/src/module/sema/resolver.rs: run, ContextImpl, Resolve, Bind", "llrl0/src/module/scope.rs: LocalScope", "llrl0/src/ast/expr.rs: ExprLetBindingContext", "llrl0/src/ast/construct.rs: Construct"]}
{"id": "C53", "title": "Every match in an accepted module handles every value", "statement": "The check of the matches of a module always comes to an end. If it accepts the module, then every match written anywhere in it, however deep inside functions, macros, default methods, methods of instances and top-level expressions, has a clause for every value of the type of its patterns. If types have values and no finite list of constants exhausts one, then no clause of an accepted match is superfluous. An error names a match of the module that deserves it: the clause called useless handles only values that the clauses before it handle, and each pattern shown as missing matches a value that no clause handles. The order in which declarations are looked at does not change whether the module is accepted.", "quantifier": "every module whose clauses have patterns of one type per match, every set of types, every order of the tables", "why_tests_cant": "expressions and patterns nest without bound, the values of a type are infinitely many, and constructors are looked up in tables filled on the way", "anchors": ["llrl0/src/module/sema/validator.rs: run, Context::validate_match, value_cons_of, tag_of, simplify_pattern", "llrl0/src/ast/expr.rs: Dfs for Expr", "llrl0/src/ast/root.rs: Root::expressions", "llrl0/src/pattern_matching.rs: check"]}
{"id": "C54", "title": "S-expressions become the syntax trees of the grammar, with new identities for everything declared", "statement": "An S-expression read as a kind, a type, a pattern, an expression or a declaration (of a function, a C function, a builtin operation, a macro, a data type, a class or an instance), possibly after expanding macros, becomes a tree that the grammar of the language gives for it: keywords, tuples and unit, functions, annotations with type parameters and constraints, local variables and functions, clauses, quotations. Everything a tree declares (variables, functions, parameters, type parameters) has an identity of its own that was not in use before. What is rejected has no reading, and nothing has two readings that differ in more than these identities. Reading always comes to an end when no macro is called and lists are of moderate length; then it succeeds exactly for what has a reading.", "quantifier": "every S-expression of any depth, every set of macros and what they do, every set of names at the top of the module", "why_tests_cant": "S-expressions nest without bound, macros rewrite them arbitrarily before they are read, and the words of the language may be used as names in many places", "anchors": ["llrl0/src/module/sema/ast_builder.rs: Build (for Kind, Type, Annotation<Scheme>, Pattern, Expr, LocalVar, LocalFun), expand_macro, next_id", "llrl0/src/syntax/expr.rs: Expr, LocalDef", "llrl0/src/syntax/decl.rs: Decl, Function, CFunction, BuiltinOp, Macro, Data, DataValueConstructor, BuiltinType, BuiltinValueConstructor, Class, Instance", "llrl0/src/syntax/pattern.rs: Pattern", "llrl0/src/syntax/types.rs: Type, Scheme", "llrl0/src/syntax/kind.rs: Kind", "llrl0/src/ast/builtin.rs: tuple, LIMIT_VARIADIC_SIZE"]}
