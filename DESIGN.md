# Formal model of yubrot/llrl in Rocq (Coq 8.16.1)

## 1. Layout

Every area of the code has one directory under `rocq/theories/`:

| file | content |
|------|---------|
| `<Area>/Model.v` | executable Gallina model of the code, every definition cites the modelled file and lines; no proofs |
| `<Area>/Spec.v`  | small independent specification, written without the model's helpers |
| `<Area>/Proofs*.v` | lemmas |
| `<Area>/Properties.v` | only property theorems, closed by `exact`, each followed by `Print Assumptions`, plus the non-vacuity `Example`s |

Conventions of the models

* A Rust function taking `&mut` becomes a function returning the new value.
* A panic (`unwrap`, `assert!`, index out of range) is an explicit error value.
* Loops are structural recursion or recursion on explicit fuel; running out of fuel is an
  explicit error value, and theorems prove that it does not happen.
* Integers are unbounded unless the property is about wrap-around; then `mod 2^w` is explicit.
* Characters are `N` (Unicode scalar values), bytes are `N` or `Z` below 256.

## 2. Properties, model and proof plan

| id | modelled | proof |
|----|----------|-------|
| C01 | `string.rs` in full | induction on the string; characterisation of failing texts by an inductive grammar |
| C02 | `lexer.rs` in full (float syntax test is a parameter), `location.rs` | progress lemma for each `eat_*`; measure is the remaining text |
| C03 | `lexer.rs`, `string.rs` | the scanner stops exactly at the closing quote of an escaped string |
| C04 | `parser.rs`, `primitive.rs`, `grammar.rs` | explicit fuel with a proof that input length suffices; relational grammar as specification |
| C05 | `sexp.rs` Display, lexer and parser models | induction on the S-expression; counterexamples where the code does not round-trip |
| C06 | `path.rs` | segments as lists of characters |
| C07 | `interning.rs` | invariant over histories |
| C08 | `topological_sort.rs` | Tarjan invariants (white paths, lowlinks) over the recursive `visit` |
| C09 | `unification/kind.rs` | triangular-substitution invariant, most general unifier |
| C10 | `unification/types.rs` | soundness of bindings, levels |
| C11 | `pattern_matching/*` | Maranget's theorem against a denotational `matches` relation |
| C12 | `preprocess.rs` | environment discipline; counterexample for duplicated names |
| C13 | `module/scope.rs` | refinement to a stack of finite maps; counterexample after a duplicate |
| C14 | `importer.rs`, `exporter.rs` | wildcard matcher equals its relational meaning |
| C15 | `module/parallel.rs` as a transition system | invariants over all interleavings, confluence of the final state |
| C16 | `source/collector.rs` as a transition system | invariants over all interleavings |
| C17 | `lowering/branch_expander.rs` | evaluator for generated code, simulation with first-match semantics |
| C18 | `lowering/data_expander.rs` | every strategy evaluated and matched with the semantics of the IR; agreement of what is built with the added definitions; termination of alias replacement by rank of dependency group |
| C19 | `native/mem_layout.rs` (product, sum, eightbytes, the resolver) | products of leaves by induction; the resolver by the height of a type and a measure on what is not yet resolved, for any order of the hash map |
| C20 | `chibi/codegen/stack_frame.rs` | which variables are alive together is a relation on the IR; by induction on the body, what is added lies between the depth of the scope and the size of the frame |
| C21 | `asm/encoding.rs`, `asm/operand.rs`, all 1366 implementations in `asm/inst.rs` (transcribed by a script into `Asm/Table.v`) | decoder written from the x86-64 manual (`Asm/Manual.v`); every entry has one shape, checked by computation; decode after encode proved for that shape |
| C22 | `asm/writer.rs`, `asm/obj.rs` | invariant over histories of calls; linking rules written from the System V ABI (`Obj/Spec.v`), for every placement |
| C23 | `jit/segment.rs`, `jit/mmap.rs`; the operating system is a parameter that only gives pages nobody has | invariant over request lists |
| C24 | `jit.rs`, `jit/table.rs`, `jit/address_table.rs`, `jit/symbol_table.rs`; memory is a function from addresses to bytes, a write outside a writable mapping is a fault; `mprotect` succeeds | invariant over calls; linking rules of `Obj/Spec.v`; composed with C22; refutation of the range check |
| C25 | `elf/format.rs`, `elf/adapter.rs`; errors of the file underneath are not modelled | a reader written from the ELF-64 format and the ABI (`Elf/Spec.v`), read after write for any sections and for any object; composed with C22: what a linker reads links to what was asked |
| C26 | `std/internal/utf-8.llrl`; decoding of strings in `string-text.llrl`, `char.llrl` | the encoding written by arithmetic from the Unicode standard (`Utf8/Spec.v`); the automaton accepts exactly the encodings, up to the wrong upper bound (refuted) |
| C27 | `std/ord-map.llrl` (nodes are values; arrays are the lists of what is initialised, anything else read or written is a panic) | refinement to a list of entries in increasing order (`OrdMap/Spec.v`), for any order on keys, with the laws of finite maps proved of the list; every node in bounds and all leaves at one depth (`OrdMap/SpecTree.v`) |
| C28 | `std/persistent/ord-map.llrl` (boxed and unboxed nodes are one type) | histories of versions refine lists of entries in increasing order; red-black invariants (`RbMap/Spec.v`), with a missing black node followed through the removals |
| C29 | `std/hash-map.llrl`, over arrays whose elements may not be initialised (`Base/Buf.v`) | histories of calls on maps refine lists of entries up to order, for any hash function; the Robin Hood invariant between neighbouring slots (`HashMap/Proofs.v`) |
| C30 | `std/persistent/hash-map.llrl` (trees and arrays are values; a tree taken for the further elements of a hash, or the other way round, is a panic) | arrays under a bitmap as maps from bits; the entries of a tree by the rest of their hash; histories of versions refine lists of entries up to order, for any hash function; every tree below the root has two elements (`Hamt/Spec.v`) |
| C31 | `std/xxhash.llrl`; the hasher's memory is its 32 bytes, going outside is an outcome | the state after bytes is a function of them, by an invariant over calls; comparison with XXH64 written from its description |
| C32 | `std/internal/array-vector.llrl`: arrays, vectors, iterators over them, `collect`; memory is explicit (blocks of cells, allocation never fails) and undefined use of it is an outcome. Not modelled: filling with effectful functions (`array/new*`, `fill!*`), `DebugDisplay` | simulation by sequences of every history of calls on any number of objects; an ownership discipline on the side of the program says what is shared and so may not be written |
| C33 | all the functions of `std/internal/string-text.llrl` on bytes; `llrt_string_eq`, `llrt_string_cmp` of `rt.c`; memory is not shared in the model | occurrences in bytes, leftmost pieces, dictionary order of characters (`Strings/Spec.v`) |
| C34 | `std/io/path.llrl` over the strings of C33; the current directory is a parameter | paths mean names between slashes; each operation is compared with that meaning, by where the last name is located |
| C35 | `source_loc.rs`, parser locations | invariant over issue histories |
| C36 | `lowering/heap2stack.rs` (with the traversal of `ir/rewriter.rs`) | simulation of the program before the pass, nothing released, by the program after it, stack objects released at the end of their binding; opaque operations only reach what they are given (`prims_local`) |
| C37 | `lowering/ir/rt.rs` | typed evaluation of operators; smart constructors preserve evaluation |
| C38 | `sexp/matcher.rs` | each matcher against a relation on S-expressions |
| C39 | `source/loader.rs` | path to file-name function, injectivity or counterexample |
| C40 | `chibi/codegen/call_frame.rs`, `chibi/codegen/reg_assign.rs`, `eval_c_call` of `chibi/codegen.rs` | offsets of caller and callee compared; for C functions, where the code leaves the arguments against a separate description of the convention (`Codegen/Foreign.v`) |
| C41 | `asm/inst.rs` as in C21 | what the opcode bytes of each entry can be, compared for each pair by computation; the operands by C21 |
| C42 | `asm/writer.rs`: instructions with labels, through the encodings of C21 | the encoding of each is a fixed prefix and the operand; the operand by C22 |
| C43 | `std/hash.llrl`, `std/eq.llrl` with derived instances, over C31; values are what their instances see of them | equality of values without floats is identity; with C31 the hash is a function of the bytes written |
| C44 | `codegen/stack_inst.rs`, `codegen/reg_assign.rs`, `StructElem` and `Reinterpret` of `codegen.rs`, over a model of the instructions they emit | the bytes of a value before and after running the instructions, by class and size |
| C45 | `chibi/codegen.rs`, `call_frame.rs`, over the same instructions and a machine with code addresses, `call`, `ret`, integer and floating-point arithmetic, an allocator and C functions | a big-step meaning of expressions on byte sequences and a heap; by mutual induction on the evaluation, the generated code started in a state that represents the environment reaches one that represents the result (simulation with an invariant on frame, stack depth, heap and local continuations) |
| C46 | `lowering.rs` (`process_requests`, `MainStatements`); what is translated is not modelled, nor the execution of macros | a relation between histories of requests and the sequence of expressions (`Init/Spec.v`: once, exactly the needed ones, in order, imports first); induction on the history, and on the suffix of modules for the depth-first walk |
| C47 | `backend/native/data.rs` and `calling.rs` for syntax of S-expressions, strings and results of macros, `pack`/`unpack` of `ast/builtin.rs`, `embed_rodata` of `backend/chibi/codegen.rs`; the layouts of `Sexp` and `Result` come from the models of C18 and C19; the compiled macro and the allocator are parameters; other instances of the traits are not modelled | an inductive relation between memory and S-expressions (`Native/Spec.v`); induction on the S-expression for the conversions with a frame condition for the heap, and on the data with references for the object, on top of C22 |
| C48 | closure conversion of `lowering/normalizer.rs` with `captured_vars` of `ir/traverser.rs`, the traversal of `ir/rewriter.rs` and the queue of definitions of `context.rs`; types have been evaluated and local functions have no type parameters; new functions are normalized one after another rather than on first use; generic functions are not modelled, transparent ones are those of C49 | a big-step semantics of expressions with local functions as values that hold their variables (`Closure/Spec.v`), with the operations as a parameter that does not look into functions; a relation between expressions before and after (`Closure/Rel.v`) that the normalizer is shown to produce by induction on the expression, and a forward simulation by induction on the evaluation; a measure for the end of the conversion |
| C49 | `call_transparent` and `after_rt` of `lowering/normalizer.rs`, `replace_rt` and `realloc_rts` of `ir/rewriter.rs`, on the expressions of C48 (`Inline/Model.v`); the repeated replacement is modelled for calls in tail position only | a relation between expressions that differ in the ids of variables, which the replacement is shown to produce by induction on the body, and an induction on the evaluation that such expressions do the same, both ways; the cases in which the property fails are shown on concrete functions |
| C50 | `sema/kind_inference.rs` over the unification of C09 and the sort of C08: every implementation of `Infer` is a list of groups, each with constructs to set up, types and constraints to walk over, and the same constructs to fix (`KindInfer/Model.v`, with `root_groups` for whole modules); where an error is reported is left out, and erroneous types, which make inference panic, are not modelled | the solutions of the pool are the fitting kinds: each step adds one equation, unification keeps exactly the solutions of it (C09), fixing a construct takes the solution in which what is open is `Type`; then induction over the groups. Independence of the order from the uniqueness of the most general solution. For whole modules: the sorted groups of data types and classes are the classes of mutual need (C08), so each table order gives the same groups in another order, and what a group mentions has been introduced before it |
| C51 | `sema/type_inference.rs:131-261, 493-534` over the types of C10 and the sort of C08: recording what is assumed with all superclasses, the comparison of the instances of a class, the search for evidence with its recursion limit, the evidence an instance keeps for superclasses, the check of the class hierarchy (`Instances/Model.v`). Declarations are imported before instead of when first used; the texts of errors are left out; deferring constraints and choosing defaults (`finalize_scope`, `resolve_ambiguity`) are not modelled | what evidence is and when a constraint holds is defined over the terms types stand for (`Instances/Spec.v`). Soundness: induction on the recursion count left, each step only adds equations, so evidence stays evidence in every later solution. Completeness: the fresh variables of an instance can stand for anything (`realize`), so a failed match of known types rules the instance out; that no two instances overlap rules out the others; parameters used in the target are determined by it. Recording: induction on the height of the class. Hierarchy: groups of the sort (C08) |
| C52 | `sema/resolver.rs` whole, over the scopes of C13 (`Resolve/Model.v`): kinds, types, constraints, schemes, patterns, expressions, all declarations, and the lookup of the methods of instances. The symbol of a node is stored in the node; value constructors and methods are stored in their type or class instead of by id; what an instance needs of its class is a parameter | the rules of scope are written as inference rules over environments that are functions (`Resolve/Spec.v`). Each step computes the one value the rules allow, if any, and leaves the table as it found it (`sem`), by induction on kinds, types, patterns and expressions; the scopes of C13 give the environment. That nothing is left to resolve, and that orders do not matter, follow from the rules. What an error may report is written as a second set of rules (`Resolve/SpecFaults.v`), and every error of every step is shown to follow from them |
| C53 | `sema/validator.rs` whole (`Validate/Model.v`), over the trees of C52 and the check of one match of C11: the simplification of patterns with its two tables, the traversal `Dfs for Expr`, the expressions of a module. Type and value constructors are numbered; what the module set knows of them is a parameter | patterns of the program have their own meaning and types (`Validate/Spec.v`). The tables stay right (`ok`); simplification keeps meaning and type; the traversal visits exactly the expressions written in the module, by induction over parts; C11 gives the verdicts |
| C54 | `syntax.rs`, `syntax/{kind,types,pattern,expr}.rs` and from `sema/ast_builder.rs` kinds, types, schemes, patterns, expressions and the expansion of macros (`Syntax/Model.v`), with the trees of C52 as output; the counter of identities is explicit. Executing a macro, the top level of the module and the constructs inside native values are parameters; constants are numbered. All the declarations of `syntax/decl.rs` and `define` of `ast_builder.rs` are modelled (`ModelDecl.v`, grammar in `SpecDecl.v`), `begin` included; the targets of imports and exports, which `sema/importer.rs` and `exporter.rs` read, are kept as they are. The places of expressions and the table of the constructs of the module are not modelled | the grammar is a relation between S-expressions and trees (`Syntax/Spec.v`) that leaves identities open. One rule per step of the builder (`Proofs.v`: what is built is a reading and its identities are new, what is refused has none), a view lemma per match that says which grammar rules can apply, induction on the recursion count; `ProofsRuns.v` for the end of reading; the grammar itself is unambiguous up to identities (`ProofsUnique.v`), by induction on readings. Declarations in the same way (`ProofsDecl.v`, `ProofsDeclTop.v`, `ProofsDefine.v`) |

## 3. Trusted base

* The Coq 8.16.1 kernel (and `vm_compute`).
* The axioms printed by `Print Assumptions` under each property theorem (see section 5).
* The reading of the Rust / llrl source: the models are hand-written from the source text. The
  code itself is not executed.
* What the processor does with the emitted instructions (`Stack/Machine.v`), written from the
  architecture manual; addresses are computed without wrapping around.
* What `call`, `ret`, the linker and `GC_malloc` do (`Codegen/Machine.v`): code positions have
  distinct addresses, the allocator keeps the registers of its caller and the memory in use. A run
  in which the stack pointer becomes negative (the stack is exhausted) counts as an overflow.
* What the arithmetic instructions do (`Codegen/Alu.v`), written from the architecture manual, and the
  floating-point arithmetic underneath (`Codegen/Float.v`): IEEE 754 in the default mode, on top of
  `SpecFloat` of the standard library. Flags are followed within the code of one operator only.
  Mathematical functions, operations on strings, `memcpy` and `GC_malloc` are C functions.
* How C functions take arguments and give results (`Codegen/Foreign.v`), written from the System V
  convention as far as the classes of layouts in the code go; what they compute is a parameter.

## 4. Findings

Each is a theorem with the suffix `_refuted` (an existential counterexample).

* `parse_total_any_tokens_refuted`: a token `Eof` inside the token sequence makes
  `RecoverableSeq` loop for ever (it is a leading and a following token at once). The lexer never
  produces that token, so this needs a hand-made token sequence.
* `print_nested_try_refuted`: `(a)? ?` is printed as `(a)??`, which lexes as one symbol `??`.
* `print_try_quote_refuted`: `(try? (quote (a)))` is printed as `'(a)?`, which reads back as
  `(quote (try? (a)))`.
* `print_signed_zero_refuted`: `-0` is a signed token and prints as `0`, an unsigned one.
* `module_file_injective_refuted`: two module paths can name the same file, because the extension is
  set with `set_extension`: `a` and `a.b` both give `a.llrl`.
* `topological_sort_any_keys_refuted`: the topological sort panics when two items have the same key
  (no caller does that).
* `type_match_one_sided_refuted`: `match_to_right` binds a variable of the right side when a variable
  occurs twice on the left (`F v v` against `F x y` binds `x := y`).
* `type_failed_unify_levels_refuted`: a failed `unify` leaves behind a binding no solution of the
  earlier context allows: the variable is bound before the levels are checked, with no rollback.
* `match_check_uninhabited_refuted`: a `match` without clauses over a data type without constructors
  covers every value and is refused as not exhaustive.
* `match_check_finite_constants_refuted`: constants count as unbounded, so a `match` listing every
  constant of a finite type (all 256 values of an `i8`) is refused without a wildcard.
* `preprocess_duplicate_names_refuted`: `($let ([$a 1] [$a 2])) $a` expands to `1`: the values
  shadowed by a `$let` are restored in binding order, so a name bound twice stays bound.
* `export_conflict_name_refuted`: two wildcard exports that clash on `p-x` are reported under the name `x`,
  which no target exports (exporter.rs:25 uses the matched text).
* `match_expansion_exact_refuted`: two spellings of one constant (`0` and `-0`, or `255` and `-1` at `u8`)
  are taken to exclude each other, so `(match p [(pair 0 1) ..] [(pair -0 _) ..])` reaches the point marked
  unreachable on a value that its second clause matches.
* `computed_type_exact_refuted`: `Binary::FGe` is given the type of its operands (rt.rs:435) although its
  value is a boolean (its own comment, and the self-hosted compiler, say so).
* `jecxz_encoding_refuted`: `jecxz` and `jrcxz` are written as the same bytes (`E3 cb`); `jecxz` needs the prefix
  67h.
* `pminsb_encoding_refuted`: `pminsb` is written as `66 0F 38 /r`, without its last opcode byte 38h (the generator
  skips an opcode byte that occurred before), so its bytes are those of another instruction.
* `store_immediate_refuted`: `movq label, imm32` asks for a relocation of the last four bytes written, which hold
  the immediate and not the displacement (writer.rs:427-445), so linking replaces the number to be stored and
  leaves the displacement at zero.
* `offset_rejected_refuted`: the range checks of the JIT linker are written `value < MIN && MAX < value`
  (jit.rs:189, 198, 207), which no value meets: an offset that does not fit is truncated and the call succeeds.
* `local_entry_refuted`: a relocation through the table of addresses looks only at the global symbols
  (jit.rs:235-246): for a symbol local to the object it uses another object's symbol of the same name, or fails.
* `failed_add_refuted`: `add_object` binds global symbols before it finds that one is undefined, and does not take
  them back; a corrected object can then not be added.
* `encode_scalar_refuted`, `valid_sequence_refuted`: the library takes 111411 for the largest scalar value instead of
  1114111 (utf-8.llrl:44, :89, char.llrl:17). U+1F600 cannot be encoded, its bytes are refused as invalid, and going
  through the characters of a string literal with it stops the program.
* `remove_nothing_refuted`: `string/remove-start` and `string/remove-end` of the empty string never end.
* `hash_map_zero_capacity_refuted`: `(hash-map/with-capacity 0)` makes a map without slots, and a lookup or removal before the first insertion reads outside its arrays.
* `persistent_hash_map_crowd_refuted`: the number of further keys with one hash is kept in 32 bits (hash-map.llrl:247-253); after 2^32 + 1 keys with one hash the last one inserted is not found.
* `update_empty_array_refuted`: `array/update` of an empty array compares the index with the length less one, which wraps around (array-vector.llrl:122-126); nothing is refused and memory outside the array is written.
* `reference_past_end_refuted`: `array/ref` allows the index that is the length (array-vector.llrl:68-70); reading the reference reads outside the array.
* `hashers_are_xxh64_refuted`: the step of the hash for four bytes loads them as a signed number and extends it by its sign (xxhash.llrl:145); the digests of such inputs are not XXH64.
* `float_keys_refuted`: floats hash by their bits (hash.llrl:62-65); 0.0 and -0.0 are equal and hash differently, so a map does not find one under the other.
* `join_leads_refuted`: `(path/join "" "a")` is "/a" (path.llrl:142): joining to the empty path makes a path absolute.
* `canonicalize_canonical_refuted`: the canonical path of the root directory is the empty string (path.llrl:135-136), which is not absolute and leads to the current directory.
* `extension_set_refuted`: setting an extension of "/" gives ".a/" (path.llrl:58-67), a relative path without that extension.
* `struct_elem_exact_refuted`: an element at offset 0 with as many eightbytes as its structure is left where it is. Of a structure of an f32 and an i32, which is in `rax`, the f32 is then looked for in `xmm0`.
* `call_of_return_refuted`: for a call of which the callee has no type (it is left by a `return` or a
  jump), no code is emitted at all, and what follows is run instead.
* `loop_left_in_call_refuted`: after a loop of which the body never completes in the middle of a call,
  the recorded depth of the stack is the one inside of the call, so that the next call is made
  with the stack misaligned.
* `nested_jump_refuted`: a jump in the arguments of a jump to the same continuation overwrites the
  parameters that are already set, also if it is itself abandoned.
* `c_arguments_in_order_refuted`: the arguments of C functions are evaluated from right to left (those
  on the stack first), unlike those of other functions and unlike in the LLVM backend.
* `float_comparison_refuted`: the native backend compares floating-point numbers with `ucomis` and then
  uses `sete`, `setb` and `setbe`: if an operand is not a number, `=`, `<` and `<=` are true.
* `float_to_unsigned_refuted`: floating-point numbers above 2^63 become 2^63 when converted to an
  unsigned integer of 8 bytes (the signed conversion is used).
* `transparent_argument_refuted`, `transparent_unused_refuted`: the body of a transparent function takes the place of a
  call with the argument expressions in place of the parameters, so that an argument is evaluated as often as the body
  uses it: twice, or never, even if it panics or has other effects.
* `transparent_return_refuted`: `return` in a transparent function returns from the function that calls it.
* `transparent_definition_refuted`: the compiler panics when an argument that defines a variable (`let`, `match`) is given
  for a parameter that the body uses twice.
* `transparent_local_functions_refuted`: when the body has two local functions that call each other and is not normalized
  yet (the function is part of a recursion), the first one refers to an id that no longer exists, and the compiler panics.
* `transparent_recursion_refuted`: the compiler does not come to an end for a transparent function that calls itself.
* `kinds_table_order_refuted`: the default bodies of the methods of a class are walked over right
  after the class, but the classes in the annotations of local functions in them do not count as
  dependencies of the class. If such a class is declared in the same module, the order of the hash map
  of classes decides which one comes first. A type parameter that occurs in the constraint alone is
  then fixed to `Type`, and the class constrained is rejected if its parameter is a type constructor: the
  same module is accepted in one order and rejected in the other.
* `class_hierarchy_refuted`: `verify_classes_hierarchy` (`type_inference.rs:493-503`) only rejects groups
  of two or more classes, so a class that is its own superclass is accepted; recording a constraint on it
  (`install_premise_constraint`) then follows the superclass for ever, until the stack overflows.
* `failed_search_binds_refuted`: `match_types_to_right` can bind variables on the right (see
  `type_match_one_sided_refuted`), and `build_satisfaction` does not undo this when an instance is given
  up: after trying `(C A A I32)` for `(C x y Bool)`, `x` and `y` are one type although the search ends with
  "no matching instances". `finalize_scope` goes on after such a failure, deferring the constraint.
* `large_tuple_refuted`: a tuple (and likewise a tuple type, a tuple pattern or a function type) with
  more than sixteen parts is accepted by the grammar, but `builtin.rs:42-67` asserts
  `size <= LIMIT_VARIADIC_SIZE`, so that the compiler panics instead of reporting an error.
* `reverse_refuted`: `string/reverse` turns the bytes around, so that the result need not be UTF-8.

## 5. Axioms per theorem

Every theorem named in MANIFEST.json is followed by `Print Assumptions` in its `Properties.v`. Unless
listed here, the answer is "Closed under the global context".

No exceptions so far. (`vcheck` lists the `Coq.ssr.ssrunder` axioms as loaded with the standard library;
no theorem depends on them.)
