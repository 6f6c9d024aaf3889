{"id": "C01", "title": "Decimal output of integers denotes the integer", "statement": "Whenever pnut writes an integer into its output in decimal (compiled shell code, diagnostics, assembly comments), the characters written are the canonical decimal numeral of that integer: read back as decimal they give the same number, including INT_MIN, with no leading zeros.", "quantifier": "every int n in [-2^31, 2^31) (the model proves it for every 2^k-bit int)", "why_tests_cant": "2^32 inputs, and the extreme ones exercise signed overflow; a wrong digit silently miscompiles constants", "anchors": ["pnut.c:putint", "pnut.c:putint_aux"]}
{"id": "C02", "title": "64-bit literal arithmetic is exact modulo 2^64", "statement": "Multi-word helper arithmetic used to read integer literals wider than the host word computes (hi,lo)*m and (hi,lo)+m exactly modulo 2^64, so a literal accumulated digit by digit has the two 32-bit halves of its mathematical value modulo 2^64.", "quantifier": "every digit sequence in bases 8, 10 and 16, of any length, and every 64-bit accumulator", "why_tests_cant": "2^64 accumulators times digits; carries between halves go wrong only on rare patterns", "anchors": ["pnut.c:u64_mul_u32", "pnut.c:u64_add_u32", "pnut.c:u64_to_obj", "pnut.c:accum_digit"]}
{"id": "C03", "title": "Integer literals have their C value", "statement": "A decimal, octal (leading 0) or hexadecimal (0x) literal token is read with the base C prescribes and denotes the C value; the token stops exactly at the first character that is not a digit of the base.", "quantifier": "every character sequence following the start of a literal", "why_tests_cant": "unbounded inputs; boundary digits 8/9 in octal, a-f in decimal", "anchors": ["pnut.c:accum_digit", "pnut.c:get_tok"]}
{"id": "C04", "title": "Escape sequences in character and string literals decode to the C value", "statement": "Every simple, octal (1 to 3 digits) and hexadecimal (1 to 2 digits) escape is decoded to the byte value C gives it and consumes exactly the characters of the escape.", "quantifier": "every escape sequence and every following character", "why_tests_cant": "the lookahead that ends an octal/hex escape depends on arbitrary following text", "anchors": ["pnut.c:get_string_char", "pnut.c:accum_string_until"]}
{"id": "C05", "title": "Identifier interning is faithful", "statement": "Two occurrences of an identifier are given the same symbol exactly when they are spelled the same, whatever other identifiers were read before; existing symbols keep their spelling and their attributes.", "quantifier": "every history of identifiers read, of any length and in any order", "why_tests_cant": "hash-bucket collisions depend on the history; tests see only a few", "anchors": ["pnut.c:end_ident", "pnut.c:accum_string_char", "pnut.c:begin_string"]}
{"id": "C06", "title": "String literals keep their full contents", "statement": "A string literal denotes its own bytes even if other literals share its hash bucket. (False for literals with an embedded NUL: two literals that agree up to the NUL and collide are merged, so the later one denotes the bytes of the first; true for all NUL-free literals.)", "quantifier": "every sequence of string literals", "why_tests_cant": "needs a hash collision between literals with embedded NULs", "anchors": ["pnut.c:end_ident", "pnut.c:end_string"]}
{"id": "C07", "title": "Operators are tokenized by maximal munch and comments are skipped", "statement": "A file outside directives and macros is split into exactly the tokens C's rules give (the longest punctuator of the supported set; identifiers; literals), unless two `.` tokens are adjacent, which is reported as an error; white space, line comments, block comments and joined lines never change the sequence of tokens that follows; a block comment that never ends is reported. (A number sign after a comment at the start of a line is not taken as a directive: a deviation, shown.)", "quantifier": "every character sequence", "why_tests_cant": "combinatorially many adjacent operators; comments may contain anything", "anchors": ["pnut.c:get_tok"]}
{"id": "C08", "title": "Conditional inclusion selects exactly the C groups", "statement": "For any nesting of #if/#ifdef/#ifndef/#elif/#else/#endif, a line of source is passed to the rest of the compiler iff the C standard's rules select its group, and the state after the matching #endif is what it was before the #if.", "quantifier": "every directive sequence, every nesting up to the documented limit and every truth valuation of the conditions", "why_tests_cant": "exponentially many nestings and valuations; the mask is stored in a tiny manually managed stack", "anchors": ["pnut.c:push_if_macro_mask", "pnut.c:pop_if_macro_mask", "pnut.c:handle_preprocessor_directive"]}
{"id": "C09", "title": "Constant expressions evaluate to their C value", "statement": "Array sizes, enum values, case labels and #if conditions are evaluated to the value C assigns. (False for && and ||, whose result is not normalized to 0/1; proved for the remaining operators and, for && and ||, up to truth value.)", "quantifier": "every constant expression tree and every int leaf", "why_tests_cant": "unbounded trees; the wrong operators are right on 0/1 operands", "anchors": ["pnut.c:eval_constant"]}
{"id": "C10", "title": "Macro expansion never re-enters a macro being expanded and returns to its context", "statement": "While the body of a macro is being read, an occurrence of a macro that is being expanded is delivered as its name; when the body ends, the reader continues exactly after the use, with arguments restored; too deep a nesting is reported rather than overrunning the stack; the tokens delivered are C's expansion. (Not when an argument leads back to a macro being expanded: deviations, shown.)", "quantifier": "every macro table (also mutually recursive) and token stream", "why_tests_cant": "termination and re-entrancy depend on arbitrary definitions", "anchors": ["pnut.c:attempt_macro_expansion", "pnut.c:begin_macro_expansion", "pnut.c:return_to_parent_macro", "pnut.c:macro_is_already_expanding", "pnut.c:get_tok_macro"]}
{"id": "C11", "title": "Token pasting and stringizing", "statement": "A use of a macro whose body joins operands with ## delivers the tokens C prescribes: each ## replaces the last token on its left and the first token on its right by one token, empty last operands disappear, # and a parameter give a string, and reading goes on right after the use. The pasted token is the one whose spelling is the concatenation of the spellings of the two: name with name, name with decimal integer, integer with name, integer with integer. (Deviations, shown: operands that are macros are expanded; a macro inside a left argument is pasted too early; an empty operand that is not the last one corrupts what follows; # of anything but one identifier gives NOT_SUPPORTED; 1##0 is 1; octal and hexadecimal operands are pasted in decimal; punctuators are taken for identifiers; integer##type name is refused.)", "quantifier": "every macro definition made of ##-chains, # and ordinary tokens, every file using such macros with arguments of ordinary tokens, every history of the identifier table", "why_tests_cant": "chains, arguments and definitions are unbounded, and the result depends on everything interned before", "anchors": ["pnut.c:paste_tokens", "pnut.c:paste_integers", "pnut.c:stringify", "pnut.c:accum_string_string", "pnut.c:accum_string_integer", "pnut.c:end_ident", "pnut.c:get_tok"]}
{"id": "C12", "title": "Macro arguments are split at top-level commas only", "statement": "The arguments of a macro use read from the file are the token sequences between the commas not enclosed in inner parentheses, in order, up to the matching closing parenthesis, except that an empty first argument is lost (a deviation, shown: F(,x) and F() are then refused); an argument list that does not end is an error.", "quantifier": "every token sequence after the opening parenthesis", "why_tests_cant": "unbounded nesting of parentheses", "anchors": ["pnut.c:macro_parse_argument", "pnut.c:get_macro_args_toks", "pnut.c:check_macro_arity"]}
{"id": "C13", "title": "Include paths resolve relative to the including file", "statement": "The directory prefix of a path is everything up to and including its last slash, so that a relative #include is opened at directory-of-includer followed by the spelled name; string helpers neither lose nor add characters.", "quantifier": "every path string", "why_tests_cant": "unbounded strings with arbitrary slash positions", "anchors": ["pnut.c:file_parent_directory", "pnut.c:substr", "pnut.c:str_concat", "pnut.c:include_file"]}
{"id": "C14", "title": "Expressions are parsed with C precedence and associativity", "statement": "The syntax tree built for an expression is the one the C grammar prescribes: any tree, written with (only) the parentheses C requires, is parsed back to that tree and the parser stops exactly at the first token that cannot continue the expression.", "quantifier": "every expression tree of any depth", "why_tests_cant": "precedence/associativity bugs appear only for particular operator combinations; infinitely many trees", "anchors": ["pnut.c:parse_multiplicative_expression ... parse_comma_expression", "pnut.c:parse_unary_expression", "pnut.c:parse_postfix_expression", "pnut.c:parse_cast_expression"]}
{"id": "C15", "title": "Declarators denote the C type", "statement": "A declarator made of pointers, arrays, function parameters and parentheses denotes the type C assigns to it (inside-out), for any nesting.", "quantifier": "every declarator tree", "why_tests_cant": "inside-out construction goes wrong only for particular nestings; infinitely many declarators", "anchors": ["pnut.c:parse_declarator", "pnut.c:update_inner_type", "pnut.c:get_inner_type"]}
{"id": "C16", "title": "Enumerators get their C values", "statement": "Each enumerator without an explicit value is one more than the previous one (0 for the first), each explicit one has the value of its constant expression, and its value is kept for all later uses.", "quantifier": "every enumerator list", "why_tests_cant": "unbounded lists mixing explicit and implicit values", "anchors": ["pnut.c:parse_enum"]}
{"id": "C17", "title": "Syntax-tree storage is faithful and non-aliasing", "statement": "A node read back has the operator, number of children and children it was created with, whatever nodes were created afterwards or updated elsewhere; a clone is equal to its original and distinct from it; exhausting the storage is reported, never a silent overrun.", "quantifier": "every history of node creations and updates", "why_tests_cant": "aliasing depends on the whole allocation history", "anchors": ["pnut.c:alloc_obj", "pnut.c:new_ast0", "pnut.c:new_ast4", "pnut.c:get_child", "pnut.c:set_child", "pnut.c:clone_ast"]}
{"id": "C18", "title": "Deferred text is printed in order and exactly once", "statement": "Text assembled from pieces by the shell back end is printed as the concatenation of the pieces in order, however it was nested; integers, hex, octal and characters print as their numerals/escapes.", "quantifier": "every tree of pieces", "why_tests_cant": "arbitrary nesting and sharing", "anchors": ["sh.c:string_concat", "sh.c:concatenate_strings_with", "sh.c:_put_text", "sh.c:print_text"]}
{"id": "C19", "title": "Compiled shell arithmetic has the value of the C expression", "statement": "For an expression compiled to shell arithmetic, the text emitted, read by the shell's arithmetic grammar, computes the same value and the same assignments as the C expression. (False for several operator combinations, stated and refuted separately; proved for the remaining fragment.)", "quantifier": "every expression tree of the fragment and every store", "why_tests_cant": "the emitter omits parentheses by a precedence argument that must hold for all pairs of nested operators", "anchors": ["sh.c:comp_rvalue_go", "sh.c:wrap_if_needed", "sh.c:is_associative_operator", "sh.c:wrap_integer"]}
{"id": "C20", "title": "String literals survive compilation to the shell", "statement": "A string literal written into the generated script and unpacked at run time yields exactly its bytes followed by NUL, in consecutive cells; the buffered unpacker used in release builds gives the same memory as the simple one.", "quantifier": "every byte string without NUL, of any length", "why_tests_cant": "quoting, escaping and buffering interact at arbitrary lengths and characters", "anchors": ["sh.c:print_escaped_char", "sh.c:print_escaped_string", "sh-runtime.c:unpack_escaped_string", "sh-runtime.c:handle_escaped_chars", "sh-runtime.c:extract_line_head"]}
{"id": "C21", "title": "Calls do not disturb the caller's locals", "statement": "In generated shell code, after a function returns, every variable it declared local has the value it had before the call, for any recursion and any number of locals.", "quantifier": "every call tree, every set of locals", "why_tests_cant": "recursion depth and interleaving are unbounded", "anchors": ["sh-runtime.c:let", "sh-runtime.c:endlet", "sh.c:save_local_vars", "sh.c:restore_local_vars"]}
{"id": "C22", "title": "Run-time allocation never overlaps live objects", "statement": "Objects obtained from the shell runtime's malloc (and from string/array initialisation) occupy pairwise disjoint cell ranges, freeing one does not change the contents of the others, and freed cells are exactly the object's cells.", "quantifier": "every history of malloc/free/initialisations", "why_tests_cant": "overlap depends on the whole allocation history", "anchors": ["sh-runtime.c:runtime_malloc", "sh-runtime.c:runtime_free", "sh-runtime.c:initialize_memory", "sh-runtime.c:defarr"]}
{"id": "C23", "title": "getchar delivers the input bytes in order", "statement": "Successive getchar() calls in generated shell code return the bytes of standard input, including newlines, then -1 for ever. (False for the release/buffered variant, which delivers a spurious value after some lines; true for the simple variant.)", "quantifier": "every input text", "why_tests_cant": "needs particular line lengths relative to the internal buffer", "anchors": ["sh-runtime.c:runtime_getchar"]}
{"id": "C24", "title": "File reads deliver the file's bytes in order", "statement": "Successive fgetc/read on an opened file deliver the bytes of the file in order, then -1/0, for any splitting of the reads.", "quantifier": "every file contents and every sequence of read sizes", "why_tests_cant": "buffer boundaries depend on contents and request sizes", "anchors": ["sh-runtime.c:runtime_read_byte", "sh-runtime.c:runtime_read", "sh-runtime.c:runtime_fgetc", "sh-runtime.c:runtime_unpack_line"]}
{"id": "C25", "title": "Character output writes the byte", "statement": "putchar(c) for every byte c, compiled inline or through the runtime, outputs exactly that byte.", "quantifier": "every byte value and every surrounding text", "why_tests_cant": "special characters ($, backslash, quote, %) interact with shell quoting", "anchors": ["sh.c:comp_putchar_inline", "sh.c:print_escaped_char", "sh-runtime.c:runtime_putchar"]}
{"id": "C26", "title": "Generated names never clash", "statement": "The shell names given to global variables, local variables, struct members, struct sizes, string constants, character constants, compiler temporaries, memory cells, saved-locals slots, the runtime's own variables and the shell's predefined variables are pairwise different, except for the clashes the compiler does not check for: a struct member whose name, with two underscores before it, is one of the compiler's or the runtime's own names (t1, SP, a__, ...), an enumeration constant starting with an underscore, members of the same name in two structures, and locals with the name of a POSIX shell variable. Functions have a name space of their own, in which a user function clashes with the runtime exactly when it has the name of a runtime function. Different string constants never share a name.", "quantifier": "every set of C identifiers accepted by the compiler", "why_tests_cant": "arbitrary user identifiers could collide with the mangling scheme", "anchors": ["sh.c:env_var", "sh.c:format_special_var", "sh.c:function_name", "sh.c:character_ident", "sh.c:assert_var_decl_is_safe"]}
{"id": "C27", "title": "Hoisted function calls keep C evaluation semantics", "statement": "When the shell back end moves function calls out of an expression (into temporaries, or directly into the assigned variable), every run of the emitted code is a C evaluation of the expression: same final state (so the same calls, each once, with the same arguments, and under && || only when C performs them) and same value; a condition's exit status is success iff the C value is non-zero, and the emitted && || { } list has one reading. It excepts six shapes for which the emitted code is wrong: a call before a ?: inside an operand of && || or ?: (the call is lost), a call under a cast as an operand of && || (lost), a cast or unary + around an || or && that is itself an operand of && || (grouping lost), a comma whose left side has an effect and whose right side has a call (call made too early), and x = f() followed by another call or mixed with another effect in the same expression (x read too late). Expressions the compiler rejects (calls under ?:, && || with calls outside tests) have no emitted code.", "quantifier": "every expression tree outside the six exceptions, every state, every behaviour of the called functions, every interpretation of variables and operators", "why_tests_cant": "exponentially many nestings of calls and short-circuit operators", "anchors": ["sh.c:handle_side_effects_go", "sh.c:comp_rvalue_go"]}
{"id": "C28", "title": "Loops, if, switch, break, continue and return keep their C meaning in shell code", "statement": "The shell code generated for a function body reads as exactly one shell command list, and running it performs the same simple statements and tests in the same order as the C body and ends in the same state, with the caller's variables restored exactly once on every path; a run that does not end does the same actions too. Holds for every body the compiler accepts, except bodies with: a continue of a do-while loop (the test is skipped), a default label followed by another case label (the default wins), a for(;;) every path of whose body ends in break or return and that is left by a break (what follows it is dropped), or a goto label (an if containing only a label is a shell syntax error). Each exception is refuted by a concrete program.", "quantifier": "every function body, every behaviour of the simple statements, tests and switch values, every run, ending or not", "why_tests_cant": "unbounded nesting of loops/switches/ifs with arbitrary break depths, tail positions and run lengths", "anchors": ["sh.c:comp_loop", "sh.c:comp_switch", "sh.c:comp_break", "sh.c:comp_continue"]}
{"id": "C29", "title": "Undone output leaves no trace and deferred output is placed at its mark", "statement": "Declarations appended, undone back to a mark and replayed print exactly the retained pieces, in order, each once and at the indentation of the replay.", "quantifier": "every history of append/undo/replay", "why_tests_cant": "depends on arbitrary compile histories", "anchors": ["sh.c:append_glo_decl", "sh.c:undo_glo_decls", "sh.c:replay_glo_decls"]}
{"id": "C30", "title": "Immediates are emitted little-endian and exactly", "statement": "Every 8-, 32- and 64-bit immediate written to the code buffer occupies the right number of bytes and decodes (little-endian, two's complement) to the value given; values outside the 32-bit range are never emitted through the 32-bit path silently.", "quantifier": "every integer value", "why_tests_cant": "2^64 values; sign extension edge cases", "anchors": ["exe.c:emit_i8", "exe.c:emit_i32_le", "exe.c:emit_i64_le", "exe.c:emit_word_le"]}
{"id": "C31", "title": "Every jump lands on its label", "statement": "After all labels are defined, each jump/call/address operand emitted for a label holds the displacement to (or address of) that label, whatever the order and number of uses before and after the definition, and no other code byte is changed by patching.", "quantifier": "every interleaving of emitting bytes, using labels and defining labels", "why_tests_cant": "the chained patch list runs through the code bytes themselves; unbounded forward references", "anchors": ["exe.c:use_label", "exe.c:def_label", "exe.c:alloc_label", "exe.c:setup_proc"]}
{"id": "C32", "title": "Machine instructions encode the operation requested", "statement": "The bytes emitted for each instruction helper decode, according to the x86 manual, to exactly that operation with exactly those operands, on 32- and 64-bit targets, for every register and offset.", "quantifier": "every register pair, offset and immediate", "why_tests_cant": "the ModRM/SIB/REX special cases (SP, BP, R12, R13, 64-bit) only show for particular registers", "anchors": ["x86.c:mod_rm", "x86.c:op_reg_reg", "x86.c:mov_memory", "x86.c:rex_prefix"]}
{"id": "C33", "title": "Structure layout is sound", "statement": "Members of a struct lie inside it, do not overlap, are aligned to their type, keep declaration order, and the struct's size is a multiple of its alignment; all members of a union start at 0 and fit.", "quantifier": "every (nested) struct/union type", "why_tests_cant": "unbounded types; padding errors need specific member sequences", "anchors": ["exe.c:struct_union_size", "exe.c:struct_member_offset_go", "exe.c:type_width", "exe.c:type_largest_member", "exe.c:align_to"]}
{"id": "C34", "title": "Native code for expressions computes the C value", "statement": "The code generated for an expression leaves the C value on the machine stack, with the stack otherwise unchanged and the compile-time frame size matching the run-time stack depth. (False for && and || used as values, which are not normalized to 0/1, proved up to truth value.)", "quantifier": "every expression tree, every machine state", "why_tests_cant": "unbounded trees; stack discipline errors need particular nestings", "anchors": ["exe.c:codegen_rvalue", "exe.c:codegen_lvalue", "exe.c:codegen_binop"]}
{"id": "C35", "title": "Native control flow executes the C statement", "statement": "The code generated for if/while/for/do/switch/break/continue/return executes the same actions as the C statement and restores the stack depth at every join. (False for continue inside do-while, which skips the test.)", "quantifier": "every statement tree and every run", "why_tests_cant": "unbounded nesting and iteration", "anchors": ["exe.c:codegen_statement", "exe.c:jump_to_goto_label"]}
{"id": "C36", "title": "Name lookup finds the innermost visible binding", "statement": "A variable, break target or enclosing switch refers to the most recently declared enclosing binding, and leaving a block restores the bindings visible before it.", "quantifier": "every sequence of declarations and block entries/exits", "why_tests_cant": "arbitrary shadowing and nesting", "anchors": ["env.c:cgc_lookup_var", "env.c:cgc_lookup_enclosing_loop", "env.c:cgc_lookup_enclosing_switch", "env.c:cgc_add_local"]}
{"id": "C37", "title": "The executable file's headers describe the file", "statement": "For every amount of generated code, the ELF header and program header have their exact ABI sizes and field offsets, the segment's file and memory size equal the real size of the file, and the entry point is the address of the first generated byte.", "quantifier": "every generated code length", "why_tests_cant": "sizes depend on the code length; the loader rejects or truncates otherwise", "anchors": ["elf.c:write_elf_e_header", "elf.c:write_elf_p_header", "elf.c:generate_exe"]}
{"id": "C38", "title": "Pointer arithmetic is scaled by the pointee size", "statement": "Adding an integer to a pointer moves it by integer times element size, subtracting two pointers into the same array gives the element distance. (The non-power-of-two path divides unsigned, so negative distances are wrong: refuted; proved for non-negative ones.)", "quantifier": "every element size, every index, every pair of pointers", "why_tests_cant": "errors need a non-power-of-two size and a negative difference", "anchors": ["exe.c:mul_for_pointer_arith", "exe.c:div_for_pointer_arith", "exe.c:is_power_of_2", "exe.c:power_of_2_log"]}
{"id": "C39", "title": "libc memory and string functions meet their contract", "statement": "memset, memcpy, memmove (also overlapping), memcmp, strlen, strcpy, strcat, strchr, strrchr and strcmp of the bundled libc have their C contract and touch only the cells the contract allows.", "quantifier": "every memory, every (possibly overlapping) ranges, every length", "why_tests_cant": "overlap and unbounded lengths", "anchors": ["portable_libc/src/string.c"]}
{"id": "C40", "title": "libc number parsing", "statement": "strtol/atoi return the number spelled by the string and stop at its end. (False: the scan never advances past the first digit, so the call does not terminate as soon as one digit is present.)", "quantifier": "every string with a digit", "why_tests_cant": "non-termination cannot be established by a finite run", "anchors": ["portable_libc/src/stdlib.c:strtol"]}
{"id": "C41", "title": "libc number formatting", "statement": "The formatted output of %d/%x/%o with width and zero padding is the numeral of the value padded on the left to the width, for every int, without leaving the fixed buffer.", "quantifier": "every int, base and width", "why_tests_cant": "2^32 values times widths; buffer overrun only for extreme widths", "anchors": ["portable_libc/src/stdio.c:_int_to_str", "portable_libc/src/stdio.c:vsnprintf"]}
{"id": "C42", "title": "libc malloc", "statement": "Successful allocations of the bundled libc are disjoint and inside its heap, exhausted memory gives a null pointer.", "quantifier": "every history of allocations", "why_tests_cant": "depends on the history", "anchors": ["portable_libc/src/stdlib.c:malloc"]}
{"id": "C43", "title": "snprintf respects its buffer", "statement": "snprintf(str,size,...) with size>=1 stores the formatted text cut to size-1 characters followed by NUL, writes no other byte and returns the full length; with size 0 it writes nothing. (False for size 0: a NUL is written; proved for size>=1.)", "quantifier": "every format, argument list, buffer address and size", "why_tests_cant": "buffer overruns depend on the size/length combination; all must be covered", "anchors": ["portable_libc/src/stdio.c: fputc, vsnprintf, snprintf"]}
{"id": "C44", "title": "Line splicing", "statement": "With line continuation enabled, the characters delivered to the tokenizer are those of the file with every backslash-newline pair removed. (False when a backslash precedes a backslash-newline; proved otherwise.)", "quantifier": "every input file", "why_tests_cant": "ranges over all character sequences", "anchors": ["pnut.c: get_ch, get_ch_"]}
{"id": "C45", "title": "Included text is spliced in place", "statement": "The characters delivered after an #include are those of the included file, then a newline, then the rest of the including file, for any nesting; the directory used for relative includes is that of the file being read.", "quantifier": "every tree of files and nesting depth", "why_tests_cant": "ranges over all file contents and nestings", "anchors": ["pnut.c: get_ch, include_file"]}
{"id": "C46", "title": "Line numbers in messages", "statement": "At any time the line number kept for error messages is one more than the number of newlines read from the current file; entering an included file starts at line 1 and leaving it restores the including file's line. (The column number is off by one on the first line of each file: refuted.)", "quantifier": "every tree of source files and every reading position", "why_tests_cant": "ranges over all nestings and positions", "anchors": ["pnut.c: get_ch, include_file, syntax_error"]}
{"id": "C47", "title": "printf with a constant format writes what C's printf writes", "statement": "A call printf(\"...\", args) whose format is a string constant with the conversions d i o u x X (with flags, width, precision, * and l), s, c and %% is compiled to shell commands that write exactly the bytes C's printf writes, except when: an integer conversion (or a %s with a width or precision) comes after a plain %s that itself comes after such a conversion with no %c between; %.s; a string printed with a width or precision ends in a newline; an unsigned conversion without l gets a value outside 0..2^32-1; %c gets a value outside 0..255; the format is the only argument and contains %%. puts and putstr of a constant write the string. A %c with a width, and a conversion for which no argument is left, are refused with an error wherever they occur in the format.", "quantifier": "every format made of the supported conversions, every list of argument values", "why_tests_cant": "the space of formats and argument values is unbounded and errors depend on combinations of conversions", "anchors": ["sh.c:handle_printf_call", "sh.c:printf_call", "sh.c:comp_putchar_inline", "sh.c:comp_fun_call_code", "sh-runtime.c:put_pstr"]}
{"id": "C48", "title": "A compiled native program behaves as the C program", "statement": "If C defines the behaviour of a program for given arguments and standard input (it terminates without undefined behaviour with a status and an output), the machine code in the executable that pnut writes, started by the operating system, exits with that status after writing that output to standard output, unless the stack is exhausted.", "quantifier": "every program of the covered fragment (functions, recursion, globals with initializers, locals, arrays, pointers, char/short/int/unsigned, all expression and structured-statement forms, putchar/getchar), every input, every placement of stack, code and data in memory, i386 and x86-64", "why_tests_cant": "ranges over all programs, inputs and address-space layouts; runs are unbounded", "anchors": ["exe.c: codegen_begin, codegen_glo_decl, codegen_statement, codegen_rvalue, codegen_end", "x86.c", "elf.c", "pnut.c: main"]}
{"id": "C49", "title": "A source file is parsed to the trees C's grammar assigns", "statement": "Every file derivable from C11's grammar of declarations, struct/union/enum bodies, initializers, typedefs, function definitions and statements (within the subset pnut has syntax for) is accepted by the parser and yields exactly the syntax trees the grammar assigns: specifiers in any order, each declarator applied to the shared specifier, else attached to the nearest if, labels, optional expressions of for and return, trailing commas, and identifiers classified as type names from the end of the typedef declaration that introduces them. A statement is consumed exactly to its end wherever it stands. Exceptions: a declaration with a storage class keeps it only if no type name, qualifier or parameter list occurs in its declarators and initializers; the semicolon of a goto must not come from a macro; typedef declarations are at file scope; no declaration in the first clause of for; the shell build has no nested initializer lists.", "quantifier": "all token sequences derivable from the grammar, all typedef tables, both builds, all following tokens", "why_tests_cant": "the set of source files is infinite and recursive; any test fixes one nesting of statements, declarators and typedefs", "anchors": ["pnut.c:parse_declaration_specifiers", "pnut.c:parse_struct_or_union", "pnut.c:parse_enum", "pnut.c:parse_initializer", "pnut.c:parse_declarators", "pnut.c:add_typedef", "pnut.c:parse_fun_def", "pnut.c:parse_declaration", "pnut.c:parse_statement", "pnut.c:parse_compound_statement", "pnut.c:main"]}
{"id": "C50", "title": "A compiled script behaves like its C program", "statement": "A C program made of functions with int parameters and locals (including recursion), calls, assignments, expressions, conditions with && and ||, if/while/do/for/switch/break/continue/return, putchar and exit, compiled by the shell backend and run by a POSIX shell, writes exactly the bytes that the C program writes, in the same order, and ends with the same exit status; a program that does not end writes the same bytes as far as it is followed; every call gives its caller back its own local variables.", "quantifier": "every program of the language (any number of functions, any nesting and recursion depth), every initial state of the variables, every bound on rounds, depth and output, every conforming shell", "why_tests_cant": "It ranges over all programs and all executions, including unbounded recursion, loops and output.", "anchors": ["sh.c:comp_glo_fun_decl", "sh.c:comp_statement", "sh.c:comp_assignment", "sh.c:comp_fun_call_code", "sh.c:comp_putchar_inline", "sh.c:comp_return", "sh.c:comp_rvalue", "sh.c:prologue", "sh.c:epilogue", "sh-runtime.c:local_vars"]}
{"id": "C51", "title": "The parser accepts only C", "statement": "Every expression and statement that pnut accepts, and whose assignments have a unary expression on the left and whose case labels have a conditional expression, is one that the C grammar derives, and the tree pnut builds is the tree the C grammar gives: the accepted tokens are exactly a derivation, nothing is skipped or added, and an if without else is never followed by an else. On such tokens acceptance is equivalent to derivability.", "quantifier": "every token sequence without type names (of any length and nesting), every accepted prefix", "why_tests_cant": "Rejection of everything outside the grammar ranges over all token sequences.", "anchors": ["pnut.c:parse_primary", "pnut.c:parse_postfix", "pnut.c:parse_unary", "pnut.c:parse_cast", "pnut.c:parse_conditional", "pnut.c:parse_assignment", "pnut.c:parse_comma", "pnut.c:parse_call_params", "pnut.c:parse_statement", "pnut.c:parse_compound_statement"]}
{"id": "C52", "title": "Global declarations give a shell script its C initial state", "statement": "When the commands that pnut emits for a program's global declarations have run, every scalar global has the value of its constant initialiser (0 without one), every enumeration constant its value, every structure member its index and every structure its size (readonly), every array with an initialiser list or string has its elements followed by zeros at its own non-null, disjoint addresses below the allocation pointer, and nothing else is declared; no unset or readonly variable is used wrongly on the way, and main then behaves like the C program started from that state.", "quantifier": "every list of global declarations (variables with constant initialisers, arrays, strings, enumerations, structures) in which each name is declared once, every POSIX shell, with or without object headers, every run", "why_tests_cant": "The commands depend on which runtime functions earlier declarations already printed, initialisers may refer to earlier constants, and memory layout grows with the number and size of the declarations; only an induction over all lists of declarations covers the orders and sizes.", "anchors": ["sh.c: comp_glo_var_decl, comp_initializer_list, comp_defstr, comp_enum_cases, comp_struct, comp_glo_decl", "sh-runtime.c: runtime_malloc, runtime_initialize, runtime_defarr, runtime_defstr"]}
{"id": "C53", "title": "libc character classes", "statement": "isdigit, isxdigit, islower, isupper, isalpha, isalnum, isspace, isprint, isgraph, ispunct and iscntrl are nonzero exactly for the characters that C's \"C\" locale on ASCII puts in the class; tolower and toupper map letters to their counterparts and leave every other int alone. (False for iscntrl(127): 0 is returned for DEL; proved for every other int.)", "quantifier": "every int argument", "why_tests_cant": "the functions take any int; a table test samples the classes but not the boundaries for all values, negative ones included", "anchors": ["portable_libc/src/ctype.c"]}
{"id": "C54", "title": "libc stream input and output moves exactly the bytes", "statement": "fputc, fwrite, fputs, puts and fprintf append to the stream's file exactly the bytes C says, in order, touch no other file and no memory, and return what C says; fread stores the file's next bytes at the buffer, changes no other memory and returns the number of complete elements read, less than requested only at end of file or after an error; fseek returns 0 on success. (Several clauses are false: fputs appends a new-line; fputc(-1) returns EOF although it wrote a byte; fwrite of size 0 returns nmemb; fread does not continue after a short read, returns more than requested after an error and divides by zero for size 0; fseek returns the new offset.)", "quantifier": "every string, buffer, size, count, file content and behaviour of read", "why_tests_cant": "the amount a read delivers and the buffer contents are unbounded", "anchors": ["portable_libc/src/stdio.c: fputc, fwrite, _fputstr, fputs, puts, fprintf, printf, fread, fseek"]}
{"id": "C55", "title": "#define and #undef keep the definitions in force", "statement": "After any sequence of #define and #undef directives the macros known to the preprocessor (for expansion, #ifdef and defined) are exactly those C says are in force, each with its parameters in order and its replacement list, in which exactly the parameters' names stand for the arguments; keywords and typedef names that are not redefined keep their meaning. (False when keywords or typedef names are used as macro or parameter names: #undef of a macro named like a keyword leaves an identifier, a parameter named like a keyword is not replaced, typedef names are refused; malformed parameter lists are accepted.)", "quantifier": "every sequence of directives, parameter list and replacement list", "why_tests_cant": "the table depends on the whole history of directives, which is unbounded", "anchors": ["pnut.c: handle_define, read_macro_tokens, lookup_macro_token, handle_preprocessor_directive"]}
{"id": "C56", "title": "From the text of a source file to what the executable does", "statement": "If a source text (without preprocessor directives and predefined macro names) is a C program, by C's token rules, grammar and semantics, and pnut's native compiler turns the text into machine code, then running that code gives an output and exit status that C allows for the program, for every input and all arguments; and a text is read as at most one program. (Proved for programs of the covered fragment; see C34, C35 and C48 for where compiled programs differ from C.) The output is determined by the sequence of tokens: white space and comments do not change it.", "quantifier": "every source text, identifier numbering, word size, load address, command line and standard input", "why_tests_cant": "texts, inputs and executions are unbounded", "anchors": ["pnut.c: get_tok, init_ident_table, parse_* functions, main", "exe.c: codegen_glo_decl, codegen_statement, codegen_rvalue, codegen_begin, codegen_end"]}
