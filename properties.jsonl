{"id": "C01", "title": "Struct values round-trip", "statement": "For every argument list, a struct built by FbleNewStructValue and read back with FbleStructValueField(s,i) gives, for every i < argc, a value that denotes exactly args[i], whether the implementation packed the struct into one machine word or allocated it, and never a neighbouring field or a corrupted one.", "quantifier": "all argument lists of any length whose elements are any mix of packed words and allocated pointers, all field indices", "why_tests_cant": "The packing decision depends on the total bit length of an unbounded nesting of values and the boundary case lies at exactly one word; tests sample only a few shapes.", "anchors": ["lib/value.c: FbleNewStructValue, FbleStructValueField, PackedValueLength"]}
{"id": "C02", "title": "Union values round-trip", "statement": "For every tag and argument, a union built by FbleNewUnionValue/FbleNewEnumValue reports that tag through FbleUnionValueTag, returns a value denoting that argument through FbleUnionValueArg, and FbleUnionValueField(u,f) returns the argument when f is the tag and the distinguished FbleWrongUnionTag otherwise.", "quantifier": "all tags (of any size), all packed or allocated arguments, all requested fields", "why_tests_cant": "Same one-word boundary over an unbounded space of tags and nested arguments.", "anchors": ["lib/value.c: FbleNewUnionValue, FbleNewEnumValue, FbleUnionValueTag, FbleUnionValueArg, FbleUnionValueField"]}
{"id": "C03", "title": "Packed words are canonical and never confused with pointers", "statement": "Every packed word returned by the constructors is odd (so distinct from NULL, from every aligned pointer and from the 0x2 sentinels used for tail calls and wrong union tags), and two packed words built for different data never coincide.", "quantifier": "all pairs of data values that the constructors pack", "why_tests_cant": "Injectivity is a statement about all pairs of values.", "anchors": ["lib/value.c: FbleNewStructValue, FbleNewUnionValue, IsPacked, TailCallSentinel", "include/fble/fble-value.h: FbleWrongUnionTag"]}
{"id": "C04", "title": "Packing performs only defined shifts", "statement": "Building struct and union values out of packed values never shifts a 64-bit word by 64 or more bits.", "quantifier": "all argument lists of packed values the constructors themselves can return", "why_tests_cant": "The offending operand only appears when a previous packing used the word completely; tests on x86 do not notice the undefined shift.", "anchors": ["lib/value.c: FbleNewStructValue (mask, data << arglen)"]}
{"id": "C05", "title": "List and literal values contain exactly their elements in order", "statement": "Walking the list returned by FbleNewListValue (resp. FbleNewLiteralValue) with FbleUnionValueTag / FbleUnionValueArg / FbleStructValueField produces exactly the given elements (resp. enum values with the given letter tags) in order and then ends.", "quantifier": "all lists of values and all lists of letter tags, of any length", "why_tests_cant": "Elements may be packed together with the tail up to the word boundary; unbounded lengths.", "anchors": ["lib/value.c: FbleNewListValue, FbleNewLiteralValue"]}
{"id": "C06", "title": "Integer conversion round-trips", "statement": "FbleIntValueAccess(FbleNewIntValue(x)) = x for every int64_t x other than INT64_MIN, with no signed overflow on the way; and at INT64_MIN the conversion negates INT64_MIN, which is undefined behaviour.", "quantifier": "all 2^64 integers", "why_tests_cant": "Too many inputs, and the packed/allocated switch happens in the middle of the recursion.", "anchors": ["pkgs/core/int.fble.c: MakeIntP, ReadIntP, FbleNewIntValue, FbleIntValueAccess"]}
{"id": "C07", "title": "Character and string conversion round-trips", "statement": "FbleStringValueAccess(FbleNewStringValue(s)) = s for every C string over the supported characters, and in general equals s with each unsupported byte replaced by '?'; the length is always preserved.", "quantifier": "all NUL-terminated byte strings", "why_tests_cant": "All strings of all lengths.", "anchors": ["pkgs/core/char.fble.c: Chars, FbleNewCharValue, FbleCharValueAccess", "pkgs/core/string.fble.c: FbleNewStringValue, FbleStringValueAccess"]}
{"id": "C08", "title": "Stack allocations are in bounds and disjoint", "statement": "Every object or frame the heap carves out of its managed stack lies inside memory the heap owns, and the memory of live stack objects never overlaps, across any sequence of allocations, frame pushes, pops and compactions.", "quantifier": "all sequences of allocation sizes, pushes, pops and compactions", "why_tests_cant": "An overlap needs a particular interleaving of chunk refills and pops; and the size for which the bound fails is never tested.", "anchors": ["lib/value.c: StackAlloc, PushFrame, FblePopFrame, CompactFrame, CHUNK_SIZE"]}
{"id": "C09", "title": "Heap creation initialises every field it later reads", "statement": "FbleNewValueHeap initialises all the fields that later operations (allocation on the base frame, FbleFreeValueHeap) read.", "quantifier": "all histories starting at FbleNewValueHeap", "why_tests_cant": "Freshly malloced memory is usually zero so tests pass by luck.", "anchors": ["lib/value.c: FbleNewValueHeap, FbleFreeValueHeap, StackAlloc"]}
{"id": "C10", "title": "No live value is ever reclaimed", "statement": "At every point of every history of heap operations that follows the documented contract, every object reachable from a value the client may still use (values created in, returned to or saved in an active frame) has not been freed, whatever stage the incremental collector is in.", "quantifier": "all finite histories of allocations, field reads, ref assignments, pushes, pops (merged or not), compactions and full collections", "why_tests_cant": "A failure needs a particular interleaving of incremental marking with pops and compactions.", "anchors": ["lib/value.c: IncrGc, MarkRef, MarkRefs, NewGcValueRaw, GcRealloc, PushFrame, FblePopFrame, CompactFrame, FbleValueFullGc"]}
{"id": "C11", "title": "Popping and compacting preserve the meaning of values", "statement": "The value returned by FblePopFrame, and the saved values after a tail-call compaction, are observationally equal (same tags, same fields to any depth, same shared references) to the ones passed in, and values of older frames are unaffected.", "quantifier": "all reachable heaps, all values, all access paths", "why_tests_cant": "Values are DAGs with sharing, cyclic through refs, spread over several frames.", "anchors": ["lib/value.c: GcRealloc, FblePopFrame, CompactFrame"]}
{"id": "C12", "title": "Each allocation is released exactly once", "statement": "Over the lifetime of a heap every GC object is freed at most once, and by the time FbleFreeValueHeap returns every GC object has been freed, so each native value's on_free runs exactly once.", "quantifier": "all histories ended by FbleFreeValueHeap", "why_tests_cant": "Double frees/leaks depend on which of eight lists the object is in when the heap dies.", "anchors": ["lib/value.c: FreeGcValue, IncrGc, FbleFreeValueHeap, FbleNewNativeValue"]}
{"id": "C13", "title": "Full collection terminates", "statement": "FbleValueFullGc returns from every reachable heap state.", "quantifier": "all reachable heap states", "why_tests_cant": "Termination.", "anchors": ["lib/value.c: FbleValueFullGc, IncrGc"]}
{"id": "C14", "title": "Full collection frees every unreachable object", "statement": "After FbleValueFullGc returns, every GC object that is not reachable from an active frame has been freed (as the header documents).", "quantifier": "all reachable heap states", "why_tests_cant": "Needs the exact set of unreachable objects, in every collector phase.", "anchors": ["lib/value.c: FbleValueFullGc", "include/fble/fble-value.h: FbleValueFullGc"]}
{"id": "C15", "title": "References never become vacuous", "statement": "FbleAssignRefValue returns false exactly when the assignment would make the reference (transitively) refer to itself, and otherwise, after any sequence of assignments, dereferencing any value terminates.", "quantifier": "all sequences of reference creations and assignments", "why_tests_cant": "Cycles through arbitrarily long chains of references.", "anchors": ["lib/value.c: FbleAssignRefValue, StrictValue"]}
{"id": "C16", "title": "Collector list primitives", "statement": "Get, MoveTo and MoveAllTo move exactly the intended elements between the collector's circular doubly-linked lists, and leave all other lists intact.", "quantifier": "all well-formed families of disjoint circular lists", "why_tests_cant": "Pointer surgery on aliased structures (including moving an element within its own list).", "anchors": ["lib/value.c: Clear, IsEmpty, Get, MoveTo, MoveAllTo"]}
{"id": "C17", "title": "Application is independent of argument grouping", "statement": "Calling a function value with xs++ys has the same result as calling it with xs and then the result with ys, whatever the arities of the functions involved (under-, exactly- or over-applied, partial applications of partial applications, tail calls).", "quantifier": "all function values, all argument lists and all splits", "why_tests_cant": "Arity mismatch at every level; tail-call side buffer.", "anchors": ["lib/value.c: FbleCall, FbleTailCall, TailCall, PartialApply, PartialApplyImpl"]}
{"id": "C18", "title": "Frames balance and errors propagate across calls", "statement": "Every call to a function value leaves the frame stack exactly as deep as it found it, whether the function returns, tail calls any number of times, or aborts; an abort in any callee makes the call return NULL.", "quantifier": "all executions", "why_tests_cant": "All nestings of calls, tail calls and aborts.", "anchors": ["lib/value.c: FbleCall, TailCall, CompactFrame, PushFrame, FblePopFrame", "lib/interpret.c"]}
{"id": "C19", "title": "Compiled code computes what the program means", "statement": "For every type-checked expression, interpreting the instructions the compiler generates gives the value (or the abort) that the expression's source semantics gives.", "quantifier": "all well-scoped expressions of the type-checked language, all environments", "why_tests_cant": "Compiler correctness over all programs.", "anchors": ["lib/compile.c: CompileExpr, Compile, RewriteVars", "lib/interpret.c: Interpret, RunFunction", "lib/tc.h"]}
{"id": "C20", "title": "Register allocation never clobbers a live variable", "statement": "A local slot is reused only when the variable that held it can no longer be referenced.", "quantifier": "all programs", "why_tests_cant": "Depends on the global shape of each function body.", "anchors": ["lib/compile.c: NewLocal, LocalRelease, PushVar, PopVar"]}
{"id": "C21", "title": "Union select picks the right branch", "statement": "For sorted, distinct targets, the run-time select transfers control to the branch of the value's tag if it is listed and to the default otherwise.", "quantifier": "all target tables and all tags", "why_tests_cant": "Binary search over all table sizes.", "anchors": ["lib/interpret.c: FBLE_UNION_SELECT_INSTR", "lib/compile.c: UNION_SELECT case"]}
{"id": "C22", "title": "Profiling blocks balance in compiled code", "statement": "On every control path through a compiled function, the profiling enter and exit operations balance and never pop a block that belongs to the caller.", "quantifier": "all programs and all control paths", "why_tests_cant": "All paths through all programs.", "anchors": ["lib/compile.c: EnterBodyBlock, ExitBlock, AppendProfileOp, CompileExit"]}
{"id": "C23", "title": "Profile samples charge exactly the active calls", "statement": "A sample at any moment charges the current block once as self time, each distinct block on the call stack exactly once for block time, and each distinct caller/callee pair on the stack exactly once, including with arbitrary recursion and tail-call replacement.", "quantifier": "all histories of enter, replace, exit and sample operations", "why_tests_cant": "All recursion patterns, interleaved with samples.", "anchors": ["lib/profile.c: EnterBlock, FbleProfileEnterBlock, FbleProfileReplaceBlock, FbleProfileExitBlock, FbleProfileSample"]}
{"id": "C24", "title": "Profile enter/exit is a stack", "statement": "After any balanced sequence of enter/replace/exit operations the profiler's call stack and sample stack are back to what they were, including across call stack chunk boundaries.", "quantifier": "all balanced histories", "why_tests_cant": "Chunk boundaries are reached after thousands of nested calls.", "anchors": ["lib/profile.c: CallStackPush, CallStackPop, FbleProfileExitBlock"]}
{"id": "C25", "title": "Call data lookup is a map", "statement": "The per-caller call records act as a finite map: looking up a callee returns its unique record, creating it (with zero counts) if absent, and the records stay sorted.", "quantifier": "all histories of lookups", "why_tests_cant": "All insertion orders.", "anchors": ["lib/profile.c: GetCallData"]}
{"id": "C26", "title": "Profile report is sorted and complete", "statement": "The report lists a permutation of the records, in the documented order, with ties kept stable.", "quantifier": "all lists of call records", "why_tests_cant": "All lists.", "anchors": ["lib/profile.c: MergeSort, Sort, FbleGenerateProfileReport"]}
{"id": "C27", "title": "Retained types are never collected", "statement": "At every point of every history of type-heap operations, no type reachable from a retained type has been freed.", "quantifier": "all histories of new, retain, release, add-ref, and incremental or full collection", "why_tests_cant": "Interleavings of the incremental collector with mutation.", "anchors": ["lib/type-heap.c"]}
{"id": "C28", "title": "Type heap reclaims everything unretained", "statement": "Every type is freed at most once; a full collection frees every type not reachable from a retained one.", "quantifier": "all histories", "why_tests_cant": "Interleavings, cycles.", "anchors": ["lib/type-heap.c: FullGc, FbleReleaseType, FbleFreeTypeHeap"]}
{"id": "C29", "title": "Kind equality and kind arithmetic", "statement": "Kind equality is an equivalence relation that coincides with structural identity of kinds; level adjustment composes and inverts.", "quantifier": "all kinds", "why_tests_cant": "All kinds.", "anchors": ["lib/kind.c: FbleKindsEqual", "lib/type.c: LevelAdjustedKind, FbleGetKind, FbleGetKindLevel"]}
{"id": "C30", "title": "Loaded programs are in dependency order", "statement": "When FbleLoad succeeds, every module appears after all the modules it depends on, appears once, the requested module is last, and everything listed is needed by the requested module.", "quantifier": "all module graphs", "why_tests_cant": "All graphs.", "anchors": ["lib/load.c: FbleLoad"]}
{"id": "C31", "title": "Cyclic module dependencies are rejected", "statement": "FbleLoad terminates on every finite module graph and reports an error exactly when the modules reachable from the requested one contain a dependency cycle or a module that cannot be loaded.", "quantifier": "all finite module graphs", "why_tests_cant": "All graphs; termination.", "anchors": ["lib/load.c: FbleLoad"]}
{"id": "C32", "title": "Linking passes each module the values of its own dependencies", "statement": "The linked program calls every module with exactly the results of the modules it names, in the order it names them.", "quantifier": "all programs", "why_tests_cant": "All dependency structures.", "anchors": ["lib/link.c: FbleLink, LinkInterpreted, LinkGenerated"]}
{"id": "C33", "title": "Module path comparison", "statement": "Module path equality is an equivalence relation that holds exactly for equal component lists; belonging to a package holds exactly for prefixes.", "quantifier": "all module paths", "why_tests_cant": "All paths.", "anchors": ["lib/module-path.c: FbleModulePathsEqual, FbleModuleBelongsToPackage"]}
{"id": "C34", "title": "Printed names read back", "statement": "Printing a name and lexing the result as a word token gives the same name, for every non-empty name, whatever characters it contains.", "quantifier": "all names", "why_tests_cant": "All strings.", "anchors": ["lib/name.c: FblePrintName", "lib/parse.y: FbleIsPlainWord, yylex"]}
{"id": "C35", "title": "Vectors never overflow their allocation", "statement": "Every append to a vector writes inside the array's current allocation and preserves all earlier elements.", "quantifier": "all append histories", "why_tests_cant": "Unbounded lengths, the capacity is implicit.", "anchors": ["lib/vector.c: FbleExtendVectorRaw", "include/fble/fble-vector.h"]}
{"id": "C36", "title": "Allocation accounting", "statement": "The reported maximum is the maximum, since the last reset, of the sum of the sizes of live allocations.", "quantifier": "all histories of alloc, realloc, free, reset", "why_tests_cant": "All histories.", "anchors": ["lib/alloc.c"]}
{"id": "C37", "title": "Shared strings and locations", "statement": "A reference-counted string is freed exactly when its last reference is released, under any interleaving of copies and frees.", "quantifier": "all histories", "why_tests_cant": "All histories.", "anchors": ["lib/string.c", "lib/loc.c", "lib/name.c"]}
{"id": "C38", "title": "Unused-variable warnings are exact", "statement": "A let-bound or argument variable without the `_` prefix is warned about exactly when it is not used by the rest of the program (transitively through used bindings).", "quantifier": "all expressions", "why_tests_cant": "All programs.", "anchors": ["lib/unused.c"]}
{"id": "C39", "title": "Command line parsing", "statement": "Option parsing consumes exactly the recognised options in order, and flags an error for a missing or duplicated argument.", "quantifier": "all argument vectors", "why_tests_cant": "All argv.", "anchors": ["lib/arg-parse.c"]}
{"id": "C40", "title": "Type equality is an equivalence", "statement": "Type equality is reflexive and symmetric and terminates, including on recursive types.", "quantifier": "all well-formed type graphs", "why_tests_cant": "Cyclic graphs.", "anchors": ["lib/type.c: FbleTypesEqual, TypesEqual, Normal"]}
{"id": "C41", "title": "Token locations", "statement": "Every token of a source file is reported with the line and column of its first character, whatever blanks, comments, quoted words and line breaks come before it, and the lexer terminates on every input.", "quantifier": "all source files", "why_tests_cant": "All byte sequences.", "anchors": ["lib/parse.y: yylex, ReadNextChar"]}
{"id": "C42", "title": "Module paths read back", "statement": "Printing a module path and parsing the result as a command line module path gives the same path; parsing returns NULL exactly when it reports an error.", "quantifier": "all module paths and all argument strings", "why_tests_cant": "All strings.", "anchors": ["lib/module-path.c: FblePrintModulePath, FbleModulePathName", "lib/parse.y: FbleParseModulePath"]}
{"id": "C43", "title": "Module and package lookup", "statement": "Loading a module looks the search directories up in their given order and uses the first one that has the file; distinct module paths of plain non-empty words name distinct files; the constructed file name always fits in the buffer allocated for it. Package lookup uses the first entry of the package path that has the package.", "quantifier": "all search paths, module paths and file systems", "why_tests_cant": "All search paths and file systems; buffer overruns depend on all lengths.", "anchors": ["lib/load.c: Find, FindAt, FbleFindPackage"]}
{"id": "C44", "title": "Printed kinds are unambiguous", "statement": "Two different kinds are never printed the same way in an error message, also when the printed kind is followed by other text that does not start with a digit.", "quantifier": "all kinds and surrounding texts", "why_tests_cant": "All pairs of kinds.", "anchors": ["lib/type.c: FblePrintKind"]}
{"id": "C45", "title": "Kinds are freed exactly when unreferenced", "statement": "After any history of creating, sharing, copying and freeing kinds, exactly the kinds reachable from references still held are in memory; no freed kind is accessed and none leaks.", "quantifier": "all histories", "why_tests_cant": "All histories and sharing structures.", "anchors": ["lib/kind.c: FbleNewBasicKind, FbleCopyKind, FbleFreeKind", "lib/type.c: LevelAdjustedKind, FbleGetKind"]}
{"id": "C46", "title": "Code of accepted programs reads only variables that exist", "statement": "In a program the type checker accepts, every module with a body has code, and every variable that code reads, at any nesting of functions, lets and selects, is a dependency of the module, the argument of the enclosing function, a variable captured by it, or a local variable already defined (or recursively being defined) at that point; the branches of each select are in increasing tag order. Such code, if each select has a branch, always compiles.", "quantifier": "all programs, all nestings of scopes, captures, type-only uses and errors elsewhere", "why_tests_cant": "All programs: capture lists, local slots and use flags interact with nesting and with uses that only occur in types.", "anchors": ["lib/typecheck.c: GetVar, PushLocalVar, PopLocalVar, TypeCheckExprWithCleaner, TypeCheckModule, FbleTypeCheckProgram", "lib/compile.c: CompileExpr"]}
{"id": "C47", "title": "Programs the type checker accepts do not go wrong", "statement": "When every module of a program is accepted by the type checker, compiled and linked, running the program never crashes (reads the fields of a union, applies a struct, calls a function with too few arguments, or the like): it returns a value of the type that the checker computed for the main module, aborts with one of the defined errors (undefined field, undefined recursive value), or keeps running. A returned function applied to data of its argument type has the same guarantee, and so on for what it returns.", "quantifier": "all programs, all numbers of steps, all later uses of the result", "why_tests_cant": "All programs, with recursive types and values, abstract types and casts, over all executions.", "anchors": ["lib/typecheck.c: FbleTypeCheckProgram, TypeCheckExprWithCleaner", "lib/type.c: FbleTypesEqual, FbleNormalType", "lib/compile.c: FbleCompileProgram", "lib/link.c: FbleLink", "lib/interpret.c: FbleInterpreterRunFunction"]}
{"id": "C48", "title": "Modules compiled through generated C behave like interpreted ones", "statement": "When C is generated for every module of a program and the files are compiled and linked, the linker finds all modules and the program starts; calling it, and calling any function it returns or is given, ends the same way as in the interpreter: the same value up to what functions execute, the same abort, the same contents of references, the same frames left and the same profile events in the same order. In particular a program the type checker accepts does not do what is undefined in C.", "quantifier": "all programs of compiled modules, all numbers of calls, all states and arguments a call is made with", "why_tests_cant": "All programs: gotos, labels, static arrays, capture lists, argument arrays and names of functions of every nesting, and every execution of them.", "anchors": ["lib/c.c: FbleGenerateC, EmitCode, StaticGeneratedModule, CollectBlocks", "lib/link.c: FbleLink", "lib/interpret.c: FbleInterpreterRunFunction"]}
{"id": "C49", "title": "Generated C is valid C", "statement": "C can be generated for every module that compiles whose names are ASCII, without overflowing a buffer. The file compiles: its names are identifiers, every function is declared and defined once, labels, static variables and arrays are declared once in a function, a label is followed by a statement, gotos go to labels further down in the same function, the cases of a switch differ. The files of modules with different paths define different globals, if no name has a slash in it. String literals have the contents of the name they stand for, and errors print as in the interpreter unless the file name has a quote, a backslash, a percent sign or a newline.", "quantifier": "all modules, all names and paths, all sizes", "why_tests_cant": "All strings and all programs.", "anchors": ["lib/c.c: FbleGenerateC, EmitCode, LabelForPath, SanitizeString, SizeofSanitizedString, StringLit"]}
{"id": "C50", "title": "Names in accepted programs mean their innermost binding", "statement": "In a program the type checker accepts, the code made for a module is that of its body with every name standing for its innermost binding: a let binding, function parameter or type parameter hides those of the same name around it, and types and values of the same text are kept apart; a function reads its own argument and, of what is around it, the values at the time it was made; an import reads the imported module. Every argument, definition, choice and list element of the program is in the code, in the order written, and nothing else is. The definitions of a let read its variables only when the let is marked recursive.", "quantifier": "all programs (polymorphic ones included), all nestings of functions, lets and captures", "why_tests_cant": "All programs: variables are found by position after captures, locals and type parameters were added and removed in any order.", "anchors": ["lib/typecheck.c: GetVar, PushLocalVar, PopLocalVar, TypeCheckExprWithCleaner, FbleTypeCheckProgram"]}
{"id": "C51", "title": "Programs compiled through AArch64 assembly behave like interpreted ones", "statement": "A program whose modules are compiled to AArch64 assembly, assembled and linked behaves as when interpreted: the linker finds every module, and a call of the program returns an observably equal value, aborts in the same cases and records the same profile events, unless the interpreted program does what is undefined. The generated functions keep the stack aligned, stay inside their stack frame, pass the runtime functions the arguments they expect and restore the stack pointer and the registers they must preserve, whether they return, tail call or abort. A union select jumps to the target the interpreter chooses.", "quantifier": "all programs, inputs and call depths; all aligned stack positions; all sets of tags in selects", "why_tests_cant": "All programs; registers and stack contents that only matter on error paths; all tag sets of the binary search.", "anchors": ["lib/aarch64.c: FbleGenerateAArch64, EmitCode, EmitInstr, EmitOutlineCode, EmitSearch, GetSingleTarget, StackBytesForCount, DoAbort"]}
{"id": "C52", "title": "Generated assembly is accepted by the assembler", "statement": "Assembly can be generated for every module that compiles whose names are ASCII. In the file every label is a symbol and defined once, different labels have different text, every label used is defined in the same file or is one of the runtime, executables refer to functions that are defined. In functions of less than 1 MB conditional branches reach their labels. Every instruction has an encoding when a function has at most 512 local variables, no instruction has more than 512 arguments, and tags and profile block offsets are less than 4096.", "quantifier": "all modules and names, all sizes within the stated limits (and counterexamples beyond them)", "why_tests_cant": "All programs and sizes: the limits are only met by unusually large functions.", "anchors": ["lib/aarch64.c: EmitCode, EmitInstr, EmitOutlineCode, EmitSearch, StackBytesForCount, SanitizeString"]}
{"id": "C53", "title": "Evaluating an fbld document is memory safe", "statement": "FbldEval, given any document, uses no markup or environment after it was freed and writes past no buffer, however long it runs and whether or not it reports errors. When it returns, the reference count of every markup is the number of its uses, the caller owns exactly one more reference than before (the result), no environment is left, and every document the caller has a reference to is unchanged.", "quantifier": "all documents (shared parts included), all heaps with exact reference counts, all numbers of steps", "why_tests_cant": "All documents and definitions: markups are shared between documents, environments and pending commands in any pattern.", "anchors": ["fbld/eval.c: FbldEval, Eval, PushEval, CopyEnv, FreeEnv, HeadOf, TailOf, Eq, MapPlain", "fbld/markup.c: FbldCopyMarkup, FbldFreeMarkup, FbldTextOfMarkup"]}
{"id": "C54", "title": "Operations on fbld text do not depend on how it is cut up", "statement": "@head, @tail and @ifeq see a document as the string of its characters, wherever markups begin and end: the head is its first character, the tail what remains, and documents are equal when their characters are; a command met before the answer is known is an error. The text of a document without commands is all its text, @plain wraps each plain text in a command and changes nothing else.", "quantifier": "all documents, all ways to nest and split texts", "why_tests_cant": "All trees with the same text.", "anchors": ["fbld/eval.c: HeadOf, TailOf, Eq, MapPlain", "fbld/markup.c: FbldTextOfMarkup, TextOfMarkup"]}
{"id": "C55", "title": "fbld documents mean what their definitions say", "statement": "FbldEval returns the document that the given one means and nothing else: @define and @let have static scope and hide outer definitions of the same name, arguments are evaluated at the call, commands that are not defined stay as they are, text means itself, parameters are separated by white space. It returns no document if and only if evaluation meets an error, does not end, or needs the text of a document that starts with two empty texts (a failed assertion).", "quantifier": "all documents, all depths of evaluation", "why_tests_cant": "All documents; results are stored into fields of pending commands and of unfinished sequences in an order far from that of the text.", "anchors": ["fbld/eval.c: FbldEval, Eval, PushEval", "fbld/fbld.fbld"]}
{"id": "C56", "title": "Parsing of fbld files ends and does not depend on how the text is cut into files", "statement": "For files that are empty or end with a new line (without byte 3, and with a first line other than one space) FbldParse ends with a document or a syntax error: it does not loop and no assertion of it fails. The result is that of one file with the text of all of them.", "quantifier": "all texts, all ways to cut a text into files", "why_tests_cant": "All texts; the lexer looks ahead over a buffer that is not filled across files, and indentation decides where input ends.", "anchors": ["fbld/parse.c: FbldParse, GetC, NextFetched, Is, Advance, ParseInline, ParseBlock, ParseBlockCommand"]}
{"id": "C57", "title": "fbld documents are read as they are written", "statement": "Text written by the rules of the syntax is read as the document it was written for: an argument in braces is its text as long as braces match, escapes stand for their characters, inline markup in brackets nests, a name ends where its arguments begin, a paragraph of text and commands goes on to an empty line (after @@ it may start with a command), a command starts a line, the rest of its line is an argument, indented lines after it are an argument (text as it is after a lone @, a document otherwise), a line that starts with @ and no name goes on with its arguments, and after @@ all that is left is its last argument. So no text is a way to write two documents.", "quantifier": "all documents and all ways to write them by the rules of FbldGrammar.v", "why_tests_cant": "All documents, all choices of escapes, braces, blank lines and depth of nesting.", "anchors": ["fbld/parse.c: ParseName, ParseInlineArgs, ParseInlineCommand, ParseInline, ParseBlockCommand, ParseBlock"]}
{"id": "C58", "title": "A document can be moved into a command by indenting it", "statement": "A document whose lines are moved one column to the right and put after the line of a command is the last argument of the command, exactly what it is when parsed by itself, whatever it contains; if it has a syntax error by itself then so has the whole.", "quantifier": "all documents that do not start with an empty line, all commands before and documents after them", "why_tests_cant": "All documents, with any depth of indentation inside, literal arguments and look-ahead at the end of the argument.", "anchors": ["fbld/parse.c: NextFetched, ParseBlockCommand, ParseBlock"]}
{"id": "C59", "title": "The fbld program prints the text its files mean", "statement": "fbld, given files, prints the texts of the document they mean and ends with status 0; if that document contains a command it prints the texts before the first one and ends with status 1; if the files have a syntax error or the evaluation has an error it prints nothing and ends with status 1 if it ends. When the status is 0, the whole meaning has been printed. It never uses freed memory or writes past a buffer, and at the end it holds no references.", "quantifier": "all files of text that end with a new line, any number of them, all documents, any number of steps", "why_tests_cant": "All documents with all their definitions and evaluations, errors at any place, and every order of copies and releases of shared parts.", "anchors": ["fbld/fbld.c: main", "fbld/markup.c: FbldPrintMarkup, FbldFreeMarkup", "fbld/parse.c: FbldParse", "fbld/eval.c: FbldEval"]}
{"id": "C60", "title": "Type-checked expressions are shared and freed exactly", "statement": "When a type-checked expression is rewritten for a merged function value, the original stays as it is, whatever parts of it are shared, and the caller gets one reference to the rewritten expression. Freeing a reference uses no memory that has been freed, leaves every expression that others refer to as it is, and frees what nobody refers to any more: what is allocated is what the remaining references reach, nothing if there are none. The compilation of an expression leaves the callers with the references they had and allocates nothing that stays; after the modules of a program have been compiled, nothing of their expressions is left.", "quantifier": "all type-checked expressions, with any sharing of parts, all counts and references", "why_tests_cant": "All shapes of expressions and all ways in which parts are shared between functions, and every order of copies and releases.", "anchors": ["lib/tc.c: FbleNewTcRaw, FbleCopyTc, FbleFreeTc", "lib/compile.c: RewriteVars, CompileExpr, FbleCompileModule, FbleCompileProgram"]}
