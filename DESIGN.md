# Formal model of pnut in Rocq (Coq 8.16.1)

## 1. Method

The source of udem-dlteam/pnut (`/repo`, read as text) is modelled function by function as
computable Gallina definitions.  Every definition carries a comment `pnut.c:LINES` with the code it
models and, where it simplifies, what is left out.  Conventions:

* C `int` is modelled by `Z`.  Where the code relies on the width, the model wraps explicitly
  (two's complement) or the theorem has a range hypothesis; where C gives undefined behaviour
  (overflow, division by zero) the model returns a distinct error outcome.
* Loops and recursion that are not structurally bounded use fuel and return an explicit
  out-of-fuel outcome, and theorems show that enough fuel exists.
* `fatal_error`/`syntax_error` are an error outcome (`None` or `Err`).
* Specifications (C semantics, C-standard rules, x86 decoding tables, shell arithmetic grammar)
  are written separately from the model and do not use the model's helpers.
* A property that the code does not have is stated in full as `..._refuted` (the negation, with a
  concrete witness), and the largest fragment found to hold is proved as `..._partial`.

Layout: `rocq/theories/<Area>.v` holds model + specification + lemmas; `rocq/theories/Prop<Area>.v`
holds the final theorems (short statements, `exact`/`apply` of lemmas), the non-vacuity examples and
`Print Assumptions`.

## 2. Plan per property

"Files" are in `rocq/theories`.  The final theorems are in `Prop*.v`; `MANIFEST.json` names them.

| id | what is modelled | how it is proved | files |
|----|------------------|------------------|-------|
| C01 | putint/putint_aux on negative accumulators | strong induction on magnitude; spec = canonical decimal numeral read by an independent reader | Output, Numerals, PropNumbers |
| C02 | u64_mul_u32/u64_add_u32/u64_to_obj on 32-bit words | arithmetic mod 2^64, induction over digits; the lost carry refuted | U64, PropNumbers |
| C03 | literal scanner of get_tok + accum_digit | induction on the digit run | Literals, PropNumbers |
| C04 | get_string_char | case analysis + lookahead lemma | Literals, PropNumbers |
| C05 | string pool, hash table with bucket chains, end_ident | invariant over arbitrary histories (refinement to a finite map of spellings) | Store, StoreProof, PropStore |
| C06 | same, strings with NUL | witness by computation (refuted); partial from C05 | PropStore |
| C07 | main loop of get_tok: white space, comments, operators, identifiers, literals | the model computes the maximal-munch tokenisation of an independent relational lexical grammar | Lex, PropLex |
| C08 | mask, if_macro_stack, directive handling | simulation with a specification of C's rules (stack of group states) | Cond, PropConst |
| C09 | eval_constant | induction on the tree vs. C evaluation; refuted for && and \|\| values | EvalConst, PropConst |
| C10 | macro stack, begin/return/already expanding, get_tok replay, arguments | invariant over reader steps; refinement of a relational expansion (and of Prosser's algorithm for the refutations) | Macro, MacroProof*, PropMacro |
| C11 | complete replay loop (paste_tokens, stringify), accumulators over the identifier table, paste_integers | induction on chains of ## over eventual results of the fuelled loop; conservativity over Macro.v; equality with interning the concatenated spelling in every reachable store | Paste, PasteProof, PasteStore, PropPaste, Literals, PropNumbers |
| C12 | macro_parse_argument, get_macro_args_toks | induction on token list vs. splitting spec | Macro, PropMacro |
| C13 | file_parent_directory, substr, str_concat, include stack | induction on strings | Reader, PropReader |
| C14 | the recursive-descent expression and type-name parser | completeness with respect to the left-recursive C11 grammar (relation G), hence unambiguity | Ast, Parse, Grammar, PropParse |
| C15 | parse_declarator with in-place inner-type update, parameter lists, specifiers | same theorem, declarator part, against the inside-out type | Parse, Grammar, PropParse |
| C16 | parse_enum value assignment | induction on list | Enum, PropConst |
| C17 | heap array, alloc_obj, new_ast*, set_child, clone_ast | frame lemmas over histories | Store, StoreProof, PropStore |
| C18 | text pool & print_text | every history of constructor calls; induction on the text tree | Text, PropText |
| C19 | comp_rvalue_go, comp_lvalue*, wrap_if_needed | the emitted characters, tokenised and parsed by a POSIX/C grammar, evaluate (N-bit, N>=32) to C's value and store; C semantics has C11's sequencing races | ShArith, ShExpr, ShCSem, ShEqs, ShFacts*, ShSyn, ShSem, ShMain*, PropShArith |
| C20 | print_escaped_char, dquote reading, unpack_escaped_string (both variants) | induction on string; buffer invariant | ShStr, PropShStr |
| C21 | let/endlet stack, generated prologue/epilogue | induction on call tree | ShLocals, PropShLocals |
| C22 | runtime malloc/free/initialize | invariant over histories | ShHeap, PropShHeap |
| C23 | _getchar both variants | simulation with input stream; refuted for buffered variant | ShRead, PropShRead |
| C24 | read_byte/refill/_read/_fgetc | simulation | ShRead, PropShRead |
| C25 | putchar inline and runtime | theorem over all bytes | ShStr, PropShStr |
| C26 | naming scheme (env_var, global_var, fresh_ident, assert_var_decl_is_safe) | injectivity by string reasoning, over histories of declarations | ShNames, PropShNames |
| C27 | handle_side_effects and the code around the tests | induction over trees vs. C semantics with calls (meaning of leaves and functions a parameter) | ShCall, ShCallProof, PropShCall |
| C28 | comp_loop/comp_switch/break/continue/return/if | simulation with a shell statement semantics, parametric in simple statements | ShStmt, ShStmtProof, PropShStmt |
| C29 | glo_decls pool | history refinement | Decls, PropDecls |
| C30 | emit_* | arithmetic | Asm, PropAsm |
| C31 | code buffer, use_label/def_label | chain invariant over arbitrary interleavings | Asm, AsmProof, PropAsm |
| C32 | x86.c encoders | decoder spec after the Intel manual, encode/decode theorem | X86, X86Proof, PropX86 |
| C33 | type_width/struct_union_size/offsets | induction on types | Layout, PropLayout |
| C34 | codegen_rvalue, codegen_lvalue, codegen_binop, codegen_call | compiler correctness by induction against a C semantics with byte memory (structures, unions and their assignment included), on the x86 machine (bytes decoded from memory) | CLang, NGen, NSupp, NMach, X86Sem, N*.v, PropNative* |
| C35 | codegen_statement, codegen_body, switch | same | NStmt, NSwitch, NCall, PropNative* |
| C36 | env.c | invariant over histories | Env, PropEnv |
| C37 | elf.c | byte-exact header computation for every code length | Elf, PropAsm |
| C38 | mul_/div_for_pointer_arith | the emitted bytes executed by the machine model | NPtr, PropPtr |
| C39 | string.c | loop invariants over memory | Libc, PropLibc |
| C40 | strtol | non-termination proof for all fuel (refuted) + partial for digit-free strings | LibcNum, PropLibc |
| C41 | _int_to_str, printf of the bundled libc | induction | LibcNum, PropLibc |
| C42 | malloc of the bundled libc | invariant over histories | LibcNum, PropLibc |
| C43 | snprintf of the bundled libc | loop invariant over the output function | LibcNum, PropLibc |
| C44 | get_ch with line continuation | induction on the file | Reader, PropReader |
| C45 | include_file stack, get_ch at end of file | induction on the nesting of includes | Reader, PropReader |
| C46 | line/column bookkeeping of get_ch and include_file | invariant over reader histories | Reader, PropReader |
| C47 | handle_printf_call, printf_call, comp_putchar_inline | scan invariant; the emitted commands, run by a model of the shell's printf, write what C's printf writes | ShPrintf, PropShPrintf, PropShPrintf2 |
| C48 | codegen_begin, globals, functions, runtime putchar/getchar/exit, codegen_end, write_elf_e | whole-program simulation from the source tree to the bytes of the file, loaded and run by the machine | CProg, NProg, NWhole*, PropNative* |
| C49 | parse_declaration_specifiers, parse_struct_or_union, parse_enum, initializers, declarations, typedefs, function definitions, statements, the file loop | grammar of C11 6.7-6.9 as an inductive relation (typedefs thread a table through the file); induction on derivations over the fuelled parser | ParseStmt, GrammarStmt, PropParseStmt |
| C50 | whole programs through the shell backend: functions with let/endlet, calls, assignments, conditions, switch, loops, putchar, exit, return, the end of the script | a C interpreter (fuel for depth, rounds and output) and a shell interpreter over the generated code; a lockstep theorem over statements (ShLock) on top of C19, C21, C27, C28; simulation by induction on the nesting of calls; for source programs with calls inside expressions, a second simulation from the source to the program with the calls taken out into temporaries | ShProg, ShLock, ShProg1-5, PropShProg, ShNest, ShNest1-7, PropShNest |
| C51 | the expression and statement parsers (Parse.v, ParseStmt.v), as acceptors | induction on the parser's fuel: what it consumes is derivable in the parser's own language, and with the two shape conditions in the C grammar; the converse is C14/C49 | PropAccept.v |
| C52 | compilation of global declarations (`glo_decls`), the runtime functions `_malloc`, `initialize`, `defarr`, `defstr` as state transformers on shell states with unset and readonly variables; C's initial state as a separate specification (`consts`, `arrays`, `layout`, `c_start`) | constant expressions: C19 with the character constants overlaid, then locality (the text mentions declared constants only); declarations: an invariant (`Inv`) with a chain of disjoint blocks, by induction over the list; composed with C50; six refutations | ShGlobal.v, ShGlobal1-4.v, PropShGlobal.v |
| C53 | ctype.c of the bundled libc | for every int, against lists of characters | Ctype, PropStdio |
| C54 | fputc, fwrite, fputs, puts, fprintf, fread, fseek of the bundled libc | induction on the bytes written; `read` as a relation | Stdio, PropStdio |
| C55 | handle_define, read_macro_tokens, lookup_macro_token, #undef | induction on the history of directives; ends in the macro table of C10-C12 | Define, Macro, PropDefine |
| C56 | get_tok, keywords, parser, the tests of tree operators in exe.c, code generator | composition: C07 (tokens), C49 (trees), a relation from trees to programs against the functional reading, C48 (machine); uniqueness by determinism of the parser; texts with the same tokens (white space, comments) give the same code | FrontEnd, PropFront, PropFront2, PropFront3 |

### Native code (C34, C35, C48)

*Specification.*  `CLang` is a C semantics (types, conversions, lvalues, byte memory, blocks of live addresses,
statements, calls) as a predicate transformer `ce n E e s Q`: for every placement of the objects C leaves open, the
execution is free of undefined behaviour and ends in `Q`.  `CProg` adds file-scope declarations and program start.
`X86Sem` is the machine: a decoder of instruction bytes and their effect on registers, memory, flags, standard input and
output (system calls read, write, exit, mmap of the target's Linux ABI).

*Model.*  `NGen` (expressions and statements), `NRt` (runtime functions) and `NProg` (declarations, program start and end)
follow exe.c; they produce calls of the helpers of x86.c, which `X86` encodes to bytes and `Asm` assembles with label
patching (C31); `Elf` adds the headers (C37).

*Proof.*  `NSupp` defines the fragment (`supp`, `ss`) with a "mode" saying how many bits of a value matter; `NJudge` the
simulation judgement; `NExpr*` one lemma per node kind; `NStat*`, `NStmt`, `NSwitch`, `NCall` statements and calls; `NRt`,
`NMain`, `NSetup`, `NWhole*` the whole program.  Every restriction of the fragment that stands for a miscompilation has a
refutation in PropNative2-4.

### Shell code (C18-C29, C47)

The compiler's pieces are modelled separately: texts (C18, C29), names (C26), arithmetic (C19), calls in expressions (C27),
statements (C28), printf (C47), locals (C21), and the runtime (C20, C22-C25).  Composition of those into one theorem about a
whole generated script is not done.

## 3. Trusted base

* Coq 8.16.1's kernel (and its VM, used by `vm_compute` in examples and refutations).
* `Print Assumptions` of every theorem named in MANIFEST.json answers "Closed under the global context": no axiom is used,
  not even one of the standard library.  One lemma not named there, c50_shell (and c50_instance, which uses it), shows that a shell
  conforming to the hypotheses of C50 exists; it uses Classical_Prop.classic and Description.constructive_definite_description.  (Loading ssreflect's libraries makes some of the library's own axioms present in the environment;
  nothing here depends on them.)
* The modelling of the C code by the definitions in `rocq/theories`: by reading, not by a verified front end.  Each
  definition cites the lines it models.
* The specifications: the C grammar and semantics (Grammar, CLang, CProg, ShCSem, lexical rules in PropLex, conditional
  inclusion and constant expressions in PropConst), POSIX arithmetic and printf (ShArith, ShPrintf), shell control flow
  (ShStmt), Intel's encoding and instruction semantics (X86, X86Sem), the ELF layout (PropAsm).

### Modelled

pnut.c: output of integers, object heap and AST accessors, string pool and interning, the character reader with includes
and continuation lines, 64-bit literals, escapes, get_tok (text, macro replay, arguments), conditional directives,
eval_constant, integer pasting, enumerators, the whole parser (expressions, declarators, type names, declarations, statements, files).
exe.c/x86.c/elf.c/env.c: everything named in the table.  sh.c/sh-runtime.c: everything named in the table.
portable_libc: string.c, number conversion, printf family, malloc.

### Not modelled

* stringification (#) and pasting of non-integer tokens inside get_tok; `#include` search; `__FILE__`/`__LINE__`;
  command-line handling of main; `#define` parsing (handle_define).
* parser: bodies of struct/union/enum inside type names and parameters.
* exe.c: structures as arguments, results and initializers (whole-structure assignment is modelled), function pointers, string literals, static locals, initializer lists, `#ifdef` variants other
  than i386/x86-64 Linux (Mach-O only its headers, see C37).
* sh.c: composition of the pieces into whole scripts; string literals in expressions; options other than the default build
  and the release build where a property says so.
* portable_libc beyond the files named above; examples and tests directories.
