# Formal model of ruhler/fable (fble) in Rocq/Coq 8.16.1

## Method

Every C function we treat is transcribed into a small total Gallina function
(or a step relation where the C code is a loop over shared state) in
`theories/*Model.v`.  Specifications that mention none of the model's helpers are in
`theories/*Spec.v` (or at the head of the `*Props.v` file when tiny).  Proofs are
in `theories/*Proofs.v`.  The theorems to read are in `theories/*Props.v`; these
contain only statements, `exact lemma`, non-vacuity examples and
`Print Assumptions`.

C undefined behaviour that the code could run into (shift ≥ 64, signed overflow,
use of freed or uninitialised memory, out of bounds writes) is a distinct outcome
of the model and not silently given a value.

Names: `_partial` = only part of the English property is proved, the comment says
what is missing; `_refuted` = the English property is false of the code, the
theorem is a proved counterexample.

## Plan per property

| id | model | proof |
|----|-------|-------|
| C01–C05 | 64-bit words as Z with explicit wrap; PackedValueLength as a fuelled loop proved to terminate within fuel; constructors return packed word or allocated object; denotation of words as data trees | bit-string encoding of data trees; prefix-code property; encoding ends in two 0 bits so the 65-bit case loses nothing; C04 refuted by a concrete reachable operand |
| C06, C07 | conversions over the word model | induction on the positive number / string |
| C08, C09 | memory as chunk ids with byte offsets, frames with top/max/chunks; uninitialised memory explicit | invariant over all op sequences; C08 partial for sizes ≤ (2^20-8)/2, refuted beyond; C09 refuted |
| C10–C14 | whole collector: frames, eight lists, gens, stack and GC objects; client contract as a ghost root set per frame | inductive invariant over all histories; termination by measure |
| C15 | ref store | acyclicity invariant |
| C16 | pointer-level next/prev maps | refinement to Coq lists |
| C17, C18 | call protocol over an abstract machine of function values | simulation between grouped and ungrouped application |
| C19–C22 | Tc syntax, compile.c as a function to instruction lists, interpreter as a step function | simulation, invariants on register allocation |
| C23–C26 | profile thread state | invariant relating samples to the call stack |
| C27, C28 | type-heap.c state | invariant (tri-colour with generations) |
| C29, C44, C45 | kinds as terms, and as reference counted memory | induction; invariant over histories |
| C40 | type graphs as a store; Normal, HasParam, Subst, TypesEqual with fuel | coinductive equality (bisimulation), step-indexed soundness, termination by the pairs not yet assumed |
| C30–C32 | the DFS loop of FbleLoad as a step function on explicit stack | invariant on the stack |
| C33, C34, C41–C43 | byte strings, the hand written lexer, file names | induction |
| C35–C37 | allocation states | invariant |
| C38, C39 | syntax trees / argv lists | induction |
| C46 | the type checker as a state monad over the type store of TypeModel and a stack of scopes | invariant on scopes, preserved by every case |
| C47 | the same, with the compiler, linker and interpreter models | typing of checked code, step-indexed soundness of a reference evaluator, the compiler's simulation (C19) |
| C48, C49 | lib/c.c as a function from code to statements of C, and what such statements do with the arrays and static variables of their function; the C linker's symbol table | forward simulation between instructions and their statements; shape invariant of compiled code (every jump goes forward to an instruction with profile operations) |
| C50 | the type checker of C46 | a relation between expressions and code that looks at names only (ResolveSpec.v); invariant: a captured variable is the one of that name in the scope around |
| C51 | lib/aarch64.c as a function from code to lines of assembly; a machine with registers, flags, stack and the runtime functions as calls that clobber what the ABI lets them clobber | forward simulation between an instruction and its lines (main path, outline code, binary search), invariant on SP, saved registers and the locals array; then the calls and linking of C48 |
| C53–C55 | fbld/eval.c and markup.c: reference counted markups and environments, the stack of commands with places for their results | invariant (counts = uses, with the references of pending commands and places not yet filled) over all steps; simulation of a recursive evaluator |
| C56–C58 | fbld/parse.c: the lexer (buffer, indentation, files) and the parser, over any lexer | refinement to a lexer of one text; simulation of parsers with lexers that do the same (g_block); a decreasing length; a grammar (FbldGrammar.v) as inductive relation; simulation of a shifted text |
| C59 | fbld/fbld.c main and FbldPrintMarkup: parse, evaluate, free, print, free | composition of C53, C55, C56 and C57 with the printing of a document in memory, by induction on the document |
| C60 | lib/tc.c, RewriteVars, and CompileExpr and the compilation of modules as far as they use that memory, on reference counted nodes | invariant (counts = references); refinement of the pure rewrite_vars and merge_func of CompileModel; numbering of nodes against cycles |
| C52 | the text of labels; the immediates of A64 instructions | injectivity of the text; induction over the generator |

## Where things are

| subject (code) | model | specification | theorems |
|---|---|---|---|
| packed values, structs, unions, lists, refs (lib/value.c) | PackModel | PackSpec | ValueProps |
| int/char/string conversions (pkgs/core/*.fble.c) | CoreModel | in ValueProps | ValueProps |
| managed stack (lib/value.c) | StackModel | in StackProps | StackProps |
| collector, frames (lib/value.c) | GcModel | GcClient | GcProps, GcFull, GcMeaning |
| collector lists, pointer level (lib/value.c) | ListModel | Coq lists | ListProofs |
| calls (lib/value.c, FbleCall etc.) | FuncModel | in FuncProps | FuncProps |
| bytecode and interpreter (lib/code.h, lib/interpret.c) | CodeModel | – | CodeProps |
| compiler (lib/tc.h, lib/compile.c) | CompileModel | TcSpec | TcProps, CompileSlots, CompileProfile |
| linking (lib/link.c) | LinkModel | in LinkProps | LinkProps |
| loading (lib/load.c) | LoadModel | in LoadProps | LoadProps |
| names, paths, lexer (lib/name.c, lib/module-path.c, lib/parse.y GetNextToken) | PathModel | in PathProps | PathProps |
| command lines (lib/arg-parse.c, bin/*.c) | ArgModel | in ArgProps | ArgProps |
| vectors, allocator, strings (lib/vector.c, alloc.c, string.c) | BaseModel | in BaseProps | BaseProps |
| kinds (lib/kind.c, lib/type.c) | KindModel, KindHeap | in KindProps | KindProps, KindHeap |
| profiler (lib/profile.c) | ProfileModel | ProfileSpec | ProfileRun, ProfileReport, ProfileStack |
| type heap (lib/type-heap.c) | TypeHeapModel | TypeHeapSpec | TypeHeapProps |
| types (lib/type.c) | TypeModel | TypeSpec | TypeProps, TypeExamples |
| type checker (lib/typecheck.c) | CheckModel | CheckSpec, CheckSafeSpec | CheckProps, CheckProgram |
| generated C (lib/c.c) | GenModel, GenText | in GenProps, GenValid, GenText | GenProps, GenSafe, GenLabel, GenValid, GenText |
| generated assembly (lib/aarch64.c) | AsmModel | in AsmProg, AsmValid, AsmEncode | AsmProg, AsmSafe, AsmValid, AsmEncode, AsmExample (lemmas: AsmSearch, AsmRun, AsmCode) |
| meaning of names (lib/typecheck.c) | CheckModel | ResolveSpec | ResolveProps (lemmas: ResolveScope, ResolveStore) |
| fbld documents (fbld/eval.c, fbld/markup.c) | FbldModel | FbldSpec | FbldMemProps, FbldProps (lemmas: FbldMem, FbldSafe, FbldOps, FbldSim*) |
| fbld syntax (fbld/parse.c) | FbldParse | FbldGrammar | FbldParseProps (lemmas: FbldLex, FbldParseSim, FbldParseSim2, FbldParseTot, FbldParseMono, FbldRound, FbldIndent, FbldBlocks) |
| fbld program (fbld/fbld.c, FbldPrintMarkup) | FbldMain | `printed` and `all_text` in FbldMain | FbldMain |
| memory of type-checked expressions (lib/tc.c) | TcMem | in TcMem (`is`, `exact`, `reaches`) | TcMem |
| unused variables (lib/unused.c) | UnusedModel | UnusedSpec | UnusedProps |

## Status

MANIFEST.json lists, per property, the theorems and what is missing.  Where a
property is false of the code, the theorem named `_refuted` (or an example in
the same file) is the counterexample, and the positive theorem says under what
condition, or with what repair, it holds.

## Trusted base

* Coq 8.16.1's kernel (and `vm_compute`, used in concrete examples).
* Assumptions: every theorem named in MANIFEST.json is "Closed under the global
  context" (`Print Assumptions`).  No axioms of the standard library are used.
  (`vcheck` reports seven names `Coq.ssr.ssrunder.Under_rel.*`: these are
  parameters of a module type inside the ssreflect library that `lia`'s
  dependencies load; no theorem depends on them.)
* That the models say what the C code does.  Each definition cites the lines it
  models.  The choices made once and for all:
  - A pointer is a number; NULL, freed memory, uninitialised memory, failed
    assertions and out-of-bounds accesses are explicit outcomes (`None`, `UB`,
    `Crash`), never a default value.
  - Loops and recursion take fuel; theorems either show that a stated amount of
    fuel suffices or speak of every fuel with which the run ends.
  - 64-bit arithmetic is written with explicit wrap-around.  Left shifts of
    signed numbers that overflow are taken to wrap, as gcc does.
  - malloc never fails (the code does not handle failure either).
  - Byte strings contain no NUL.

Not modelled: the grammar of lib/parse.y beyond its lexer and module paths;
the text of the type checker's error messages; the C compiler (GenModel gives the
meaning of the statements that lib/c.c prints, not of C in general); the assembler, and of
lib/aarch64.c the debug information (.loc, DWARF), the locations in error messages and
FbleGenerateAArch64Main; AsmModel runs generated code with a profile (R_PROFILE not NULL),
integers without bounds, and a stack without end; stdio and app drivers; of fbld the markup freed after a syntax error,
locations and the text of error messages; the fble code in
pkgs; the printing of errors other than kinds, names, paths and the profile
report's numbers; threads (the code has none).

## Findings about the code

Found while proving; each is a theorem or a comment at the model concerned.

1. FblePopFrame updates `max_gen` only when the returned value belongs to the
   popped frame; an object in use can be freed (values_in_use_intact_refuted).
2. A ref that is compacted twice unassigned and then assigned loses its link
   (outside the client contract).
3. FbleValueFullGc leaves the last cycle's garbage (C14).
4. StackAlloc adds the size twice when it starts a chunk (C08).
5. FbleNewValueHeap leaves the base frame's `chunks` uninitialised (C09).
6. Packing shifts by 64 for a 64-bit operand (C04); negating INT64_MIN (C06).
7. link.c gives the `<main>` code block 0, so `<main>` is never charged and the
   root block's time is counted twice (root_charged_twice).
8. FbleNewProfileThread allocates its first chunk larger than needed.
9. FblePrintModulePath does not quote, so printed paths are ambiguous; the empty
   name prints nothing (C34, C42).
10. Leaks of size zero are not detected (C36).
11. FbleParse and FbleParseModulePath ignore yyparse's result; an unterminated
    quoted word is accepted; isspace is called with negative chars; byte 0xFF
    is taken for the end of input on the command line; NUL ends the input.
12. An empty entry in FBLE_PACKAGE_PATH searches `/package`; names that are
    empty or `..` alias or leave the root directory (C43).
13. Select on a one-field union makes an empty target table, which fails an
    assertion in the interpreter (C21, single_field_select).
14. typecheck.c reads a union value's `datatype` before checking the tag;
    TypeCheckModule checks a module's type by its value (2318; a module with a
    type and no value would dereference NULL, but FbleLoad makes none).
15. The profile stack is left unbalanced by an aborted call (C22).
16. fble-perf-profile loops forever on an unknown argument, and its GetLine
    writes one past its buffer; flags documented "at most once" may be repeated.
17. A non-opaque abstract type that contains itself equals every type
    (self_abstract_not_transitive); by casts to and from it a program that the type
    checker accepts applies a struct as a function (unfounded_cast_unsound).
18. Types whose parameters are bound again on the way round a cycle are found
    equal although they differ (rebound_found_equal).
19. Eta reduction in Normal does not check that the parameter is not free in the
    function (eta_captures_parameter), and may return a variable that has a value,
    which fails an assertion in TypesEqual (eta_result_not_normal).
20. A struct copy one of whose arguments is ill-typed passes NULL to FbleCopyTc
    and FbleTypesEqual (lib/typecheck.c:1327).
21. "illegal use of tag" passes a FbleTaggedExpr for `%n`, which reads a FbleName.
22. SanitizeString and LabelForPath print a byte from 0x80 on as a negative int:
    eight hex digits into `char x[5]` (label_overflow).
23. A slash inside a (quoted) name gives two modules the same C global
    (labels_clash).
24. FbleGenerateC puts the file name of the module unescaped into a C string that
    is a printf format (abort_reported_refuted); names with `??/` break when
    trigraphs are on (string_literal_trigraph_refuted).
25. A select with one field works in generated C but fails an assertion in the
    interpreter (13).
26. Generated assembly uses immediates that do not exist for functions with 513 to
    1022 local variables, and lists, structs, calls and closures of 513 to 1022 values
    (many_locals_not_encodable, wide_list_not_assembled); also for tags and profile
    block offsets from 4097 on.  The C backend handles them.
27. FbleGenerateAArch64Main pushes FP and LR and then jumps to the application's main
    with `br`, so that it returns to libc with SP 16 too low and FP changed; the two
    instructions after `br` are dead.
28. FbleGenerateAArch64 puts file names unescaped into `.file`, `.string` and DWARF
    strings.
29. fbld: TailOf and MapPlain dereference NULL when their argument had an error:
    `@tail[@error[x]]` and `@plain[f][@error[x]]` crash (ex_null in FbldProps.v).  After an
    error evaluation goes on, and may not end.
30. fbld: FbldTextOfMarkup of two leading empty texts fails `assert(src_size < *capacity)`
    (fbld/markup.c:159; without assertions it writes past its buffer) (ex_assert).
31. fbld: isspace and isalnum are called with negative chars; byte 0x03 is taken for the
    end of input; Eq frees the wrong document on a path proved unreachable.
32. fbld: a file that ends without a new line in an argument on the line of its command,
    `@foo a`, fails the assertion of Advance (no_newline in FbldParseProps.v).
33. fbld: a file that ends without a new line inside an indented argument, before another
    file, fails the same assertion: the column of the new file is taken for that of what is
    still in the buffer (no_newline_between).
34. fbld: a first line of one space is skipped, the column being 0 before the first file is
    opened; elsewhere such a line is a paragraph (first_line).
