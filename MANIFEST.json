{
 "claims": [
  {
   "property": "C01",
   "status": "proved",
   "theorems": [
    "c01_putint_denotes",
    "c01_hex_denotes",
    "c01_oct_denotes",
    "c01_pasted_integer_denotes"
   ],
   "note": ""
  },
  {
   "property": "C02",
   "status": "partial",
   "theorems": [
    "c02_mul_partial",
    "c02_mul_refuted",
    "c02_add_refuted",
    "c02_add_exact_partial"
   ],
   "note": "The full claim is false of the code (carry lost at the sign crossing); refuted with witnesses, proved on the fragment where it holds."
  },
  {
   "property": "C03",
   "status": "partial",
   "theorems": [
    "c03_decimal",
    "c03_octal",
    "c03_hex",
    "c03_hex64",
    "c03_octal64",
    "c03_decimal64_refuted",
    "c03_decimal64_partial",
    "c03_suffix"
   ],
   "note": "64-bit decimal literals are misread (refuted with witness 2147483648); everything else proved."
  },
  {
   "property": "C04",
   "status": "partial",
   "theorems": [
    "c04_escape",
    "c04_string_body",
    "c04_char_escape",
    "c04_char_plain",
    "c04_long_hex_refuted"
   ],
   "note": "Hexadecimal escapes longer than two digits differ from C (refuted); the stated escapes are proved."
  },
  {
   "property": "C05",
   "status": "proved",
   "theorems": [
    "c05_intern_iff",
    "c05_symbols_keep_contents",
    "c05_interned_is_symbol",
    "c05_hash_in_table",
    "c05_intern_progress"
   ],
   "note": ""
  },
  {
   "property": "C06",
   "status": "partial",
   "theorems": [
    "c06_string_literals_partial",
    "c06_embedded_nul_refuted"
   ],
   "note": "False for literals with an embedded NUL (refuted); proved without."
  },
  {
   "property": "C07",
   "status": "proved",
   "theorems": [
    "c07_tokens",
    "c07_only_those",
    "c07_unambiguous",
    "c07_letters",
    "c07_blank_skipped",
    "c07_comment_is_space",
    "c07_unterminated",
    "c07_dots_refuted",
    "c07_comment_before_directive_refuted"
   ],
   "note": "The model of get_tok outside directives and macros gives exactly the token sequences of an independent relation (table of punctuators, longest match, comments, white space, joined lines); adjacent dots and a comment before a directive are the shown deviations. Literal values are those of C01-C05."
  },
  {
   "property": "C08",
   "status": "partial",
   "theorems": [
    "c08_conditional_inclusion_partial",
    "c08_nested_group_transparent",
    "c08_unbalanced_endif",
    "c08_depth_refuted",
    "c08_skipped_condition_refuted",
    "c08_stray_else_refuted"
   ],
   "note": "Exact C selection for properly nested files up to ten levels whose conditions all evaluate; refuted beyond: eleven levels are refused, conditions of skipped groups are evaluated, stray or repeated #else is accepted. Macros in conditions are object-like with literal bodies."
  },
  {
   "property": "C09",
   "status": "partial",
   "theorems": [
    "c09_constant_value_partial",
    "c09_truth_value",
    "c09_logical_refuted"
   ],
   "note": "Value is C's when right operands of && and || are 0/1 in value positions; refuted otherwise (1 && 2 gives 2). Truth (as used by #if) has no such proviso at the top."
  },
  {
   "property": "C10",
   "status": "partial",
   "theorems": [
    "c10_expansion_partial",
    "c10_object_like",
    "c10_returns",
    "c10_no_reentry",
    "c10_stack_bound",
    "c10_self_in_argument_refuted",
    "c10_false_positive_refuted",
    "c10_late_parenthesis_refuted"
   ],
   "note": "Model of get_tok's macro replay, arguments, stack and attempt_macro_expansion. Object-like macros: every table of at most 59 and every file. Function-like macros: every file in the relation expand (an argument does not lead back to a macro being expanded, function-like names are followed by their parenthesis); the excluded cases are refuted against Prosser's algorithm. # and ##: C11 (c11_conservative: without them the complete loop is this one)."
  },
  {
   "property": "C11",
   "status": "partial",
   "theorems": [
    "c11_expansion_partial",
    "c11_conservative",
    "c11_as_read",
    "c11_spelling",
    "c11_integers",
    "c11_paste_integers_partial",
    "c11_paste_zero_refuted",
    "c11_right_expanded_refuted",
    "c11_left_expanded_refuted",
    "c11_premature_refuted",
    "c11_empty_left_refuted",
    "c11_empty_middle_refuted",
    "c11_string_refuted",
    "c11_octal_refuted",
    "c11_punctuator_refuted",
    "c11_type_refuted"
   ],
   "note": "Complete replay loop of get_tok with paste_tokens and stringify. Proved for every file whose macros have bodies of ##-chains, # and ordinary tokens and arguments of ordinary tokens, where only the last operand of a chain may be empty; outside that the claim is false (refuted). Spelling of the pasted token: over the identifier table of C05. Without # and ## the loop is that of C10/C12 (c11_conservative)."
  },
  {
   "property": "C12",
   "status": "proved",
   "theorems": [
    "c12_arguments",
    "c12_exact",
    "c12_leading_empty_refuted",
    "c12_single_empty_refuted",
    "c12_comma_in_expansion_refuted"
   ],
   "note": "Exact characterization for a use read from the file; inside macro bodies arguments are expanded before they are split (refuted case)."
  },
  {
   "property": "C13",
   "status": "proved",
   "theorems": [
    "c13_parent_directory",
    "c13_include_opens"
   ],
   "note": ""
  },
  {
   "property": "C14",
   "status": "proved",
   "theorems": [
    "c14_expression",
    "c14_deterministic",
    "c14_unambiguous"
   ],
   "note": "Against the left-recursive C11 grammar (all operators, casts, sizeof, calls, members, adjacent strings), for token sequences of any length. Compound literals, generic selections and braces inside type names are outside the modelled grammar; the comma operator is nested to the right."
  },
  {
   "property": "C15",
   "status": "partial",
   "theorems": [
    "c15_declarator",
    "c15_parameters",
    "c15_specifiers",
    "c15_abstract_function_refuted",
    "c15_abstract_parameters_refuted",
    "c15_variadic_leak_refuted"
   ],
   "note": "Proved for all declarators except three refuted cases: an abstract declarator that starts with a parameter list, and the variadic mark of a nested function parameter leaking outwards."
  },
  {
   "property": "C16",
   "status": "partial",
   "theorems": [
    "c16_enumerators_partial",
    "c16_enum_immediate_partial",
    "c16_negative_enum_refuted"
   ],
   "note": "Enumerator values are C's for values in -INT_MAX..INT_MAX; on x86-64 negative enumerators are refuted. Enumerators inside constant expressions are rejected by pnut."
  },
  {
   "property": "C17",
   "status": "partial",
   "theorems": [
    "c17_objects_faithful",
    "c17_no_aliasing",
    "c17_in_bounds",
    "c17_node_read_back",
    "c17_clone",
    "c17_pool_overrun_refuted"
   ],
   "note": "Heap part proved; the string pool can be overrun by one character (refuted)."
  },
  {
   "property": "C18",
   "status": "partial",
   "theorems": [
    "c18_prints",
    "c18_double_escape",
    "c18_piece_refuted",
    "c18_nul_refuted"
   ],
   "note": "Proved for every history of constructor calls; refuted: an unescaped piece with an end pointer prints past its end (the back end always escapes such pieces), and wrap_char(0) prints nothing."
  },
  {
   "property": "C19",
   "status": "partial",
   "theorems": [
    "c19_partial",
    "c19_arith_partial",
    "c19_instance",
    "c19_post_times_refuted",
    "c19_minus_post_refuted",
    "c19_neg_post_refuted",
    "c19_not_literal_refuted",
    "c19_eq_eq_refuted",
    "c19_assign_comma_refuted",
    "c19_index_lvalue_refuted",
    "c19_paren_lvalue_refuted",
    "c19_early_read_refuted",
    "c19_early_write_refuted",
    "c19_early_fault_refuted",
    "c19_minus_addr_refuted",
    "c19_neg_neg_refuted"
   ],
   "note": "Proved for every expression without calls and strings of the fragment okx (all operators, literals, lvalues, members, casts), against POSIX arithmetic (tokens, C grammar, N-bit values, N >= 32) and C11's int semantics with its sequencing rules; each restriction of the fragment is a refuted case. Names are assumed distinct (names_ok), which C26 is about."
  },
  {
   "property": "C20",
   "status": "proved",
   "theorems": [
    "c20_roundtrip",
    "c20_memory",
    "c20_sized",
    "c20_buffered_same"
   ],
   "note": ""
  },
  {
   "property": "C21",
   "status": "proved",
   "theorems": [
    "c21_calls_keep_locals"
   ],
   "note": "For every program of mutually recursive functions, both local-variable schemes (let/endlet and set), by simulation with C call frames."
  },
  {
   "property": "C22",
   "status": "partial",
   "theorems": [
    "c22_disjoint",
    "c22_contents_kept",
    "c22_free",
    "c22_initialised",
    "c22_free_all_refuted",
    "c22_defstr_past_end"
   ],
   "note": "Everything proved except that freed cells are exactly the object's cells: the last cell stays set (refuted), and defstr's terminator lies past the block (shown)."
  },
  {
   "property": "C23",
   "status": "partial",
   "theorems": [
    "c23_getchar",
    "c23_buffered_partial",
    "c23_buffered_refuted",
    "c23_buffered_16_refuted",
    "c23_file_read_clobbers_refuted"
   ],
   "note": "Proved in full for the default build; for the release build proved for inputs whose lines have lengths not divisible by 16, up to the first -1, and refuted otherwise. Inputs are texts without NUL (a shell variable cannot hold one)."
  },
  {
   "property": "C24",
   "status": "proved",
   "theorems": [
    "c24_files",
    "c24_progress"
   ],
   "note": "For every history of open/fgetc/read/close on all descriptors at once, with arbitrary heap activity of the program in between, both builds. Files without NUL bytes."
  },
  {
   "property": "C25",
   "status": "proved",
   "theorems": [
    "c25_constant",
    "c25_octal",
    "c25_string",
    "c25_negative_refuted"
   ],
   "note": "Proved for every byte and byte string; putchar of a value outside 0..255 is not reduced modulo 256 as C does (refuted separately)."
  },
  {
   "property": "C26",
   "status": "proved",
   "theorems": [
    "c26_distinct",
    "c26_globals_checked",
    "c26_identifiers",
    "c26_names_ok",
    "c26_functions",
    "c26_strings",
    "c26_reserved_exact",
    "c26_member_temp_refuted",
    "c26_member_runtime_refuted",
    "c26_member_char_refuted",
    "c26_enum_refuted",
    "c26_same_member_refuted",
    "c26_shell_var_refuted",
    "c26_instance"
   ],
   "note": "Exact: the excluded member names are proved to be precisely those that clash (c26_reserved_exact), the other exceptions are refuted by concrete declarations. c26_names_ok discharges C19's naming hypotheses."
  },
  {
   "property": "C27",
   "status": "proved",
   "theorems": [
    "c27_test",
    "c27_value",
    "c27_runs",
    "c27_call_before_cond_refuted",
    "c27_call_under_cast_refuted",
    "c27_plus_around_or_refuted",
    "c27_comma_refuted",
    "c27_assigned_call_refuted",
    "c27_cond_in_cond_refuted"
   ],
   "note": "Proved for every expression of the model outside the exceptions named in the property, each of which is refuted by a concrete program. Not modelled: string literals, assignments of a call to a non-variable lvalue."
  },
  {
   "property": "C28",
   "status": "proved",
   "theorems": [
    "c28_function",
    "c28_every_prefix",
    "c28_one_reading",
    "c28_rounds",
    "c28_do_continue_refuted",
    "c28_default_first_refuted",
    "c28_for_break_refuted",
    "c28_label_refuted",
    "c28_instance"
   ],
   "note": "Control-flow part of the shell back end (comp_statement, comp_body, comp_if, comp_loop, comp_switch, comp_break, comp_continue, comp_return, comp_glo_fun_decl). The simple statements, tests, switch words and case patterns are parameters: the theorem holds for all of them under the stated correspondence (C19/C20 give it for arithmetic). The four exceptions named in the property are refuted."
  },
  {
   "property": "C29",
   "status": "partial",
   "theorems": [
    "c29_deferred_output",
    "c29_undone_no_trace",
    "c29_inline",
    "c29_any_active",
    "c29_any_active_refuted"
   ],
   "note": "Proved for every history of append/undo/replay within the declaration buffer; the any-active counter is wrong for doubly undone lines (refuted separately). Overflow of the fixed buffer is not checked by the code and not modelled."
  },
  {
   "property": "C30",
   "status": "proved",
   "theorems": [
    "c30_immediate32",
    "c30_immediate64",
    "c30_large_immediate",
    "c30_large_immediate32",
    "c30_large_instance"
   ],
   "note": ""
  },
  {
   "property": "C31",
   "status": "proved",
   "theorems": [
    "c31_labels_resolved",
    "c31_use_lands",
    "c31_label_at_zero_refuted"
   ],
   "note": "Stated for labels whose address is positive: a label at address 0 is indistinguishable from an undefined one (shown); no program has one since code starts with the setup jump."
  },
  {
   "property": "C32",
   "status": "partial",
   "theorems": [
    "c32_encoding",
    "c32_division",
    "c32_conditions",
    "c32_push_extended_refuted",
    "c32_call_reg_extended_refuted",
    "c32_store8_refuted"
   ],
   "note": "Proved for every helper of x86.c, both word sizes, all offsets and every register for which the encoder emits the prefix that register needs; refuted for push/pop/call through r8-r15 and byte stores from SP/BP/SI/DI (no REX prefix is emitted), registers pnut's code generator does not use there."
  },
  {
   "property": "C33",
   "status": "partial",
   "theorems": [
    "c33_size",
    "c33_inside",
    "c33_disjoint",
    "c33_union",
    "c33_aligned_partial",
    "c33_aligned_refuted",
    "c33_initializer_partial",
    "c33_initializer_refuted",
    "c33_empty_refuted"
   ],
   "note": "Sizes, containment, order, disjointness (through anonymous members too) and unions proved for all types; alignment of member offsets is false (an offset is not rounded up for the member itself) and brace initializers use yet other offsets when padding is needed: both refuted, and proved when no padding is needed."
  },
  {
   "property": "C34",
   "status": "partial",
   "theorems": [
    "c34_expression_partial",
    "c34_instance",
    "ds5_runs",
    "c34_and_refuted",
    "c34_assign_refuted",
    "c34_cast_refuted",
    "c34_mixed_refuted",
    "c34_shift_refuted",
    "c34_compare_refuted",
    "c34_wrap_refuted"
   ],
   "note": "Proved for the fragment recognised by supp (integer types up to int and the word, pointers, arrays, structures and unions (members through . and ->, at the offsets of C33), all operators, calls of program functions and putchar/getchar), values modulo the width that matters; assignment of whole structures when its value is not used; structures passed or returned by value, strings, function pointers not covered."
  },
  {
   "property": "C35",
   "status": "partial",
   "theorems": [
    "c35_statement_partial",
    "c35_call_partial",
    "c35_instance",
    "c35_do_continue_refuted",
    "c35_return_refuted"
   ],
   "note": "Proved for all structured statements, break/continue, switch with top-level cases, return, calls, of the fragment ss; goto, do-while with continue not covered."
  },
  {
   "property": "C36",
   "status": "proved",
   "theorems": [
    "c36_lookup",
    "c36_resolve",
    "c36_heap_bound",
    "c36_block_restores",
    "c36_pointers_restored",
    "c36_local_enum_refuted"
   ],
   "note": "For every history of declarations and scopes. Enumerators declared inside a block go to the global environment and do not shadow outer locals (refuted separately)."
  },
  {
   "property": "C37",
   "status": "partial",
   "theorems": [
    "c37_elf",
    "c37_elf_rest",
    "c37_program_file",
    "c37_macho_refuted"
   ],
   "note": "ELF proved for 32 and 64 bits; the Mach-O __TEXT segment is declared too short by the header size (shown)."
  },
  {
   "property": "C38",
   "status": "partial",
   "theorems": [
    "c38_scale",
    "c38_distance_partial",
    "c38_distance_negative_refuted"
   ],
   "note": "Scaling proved in full, on the emitted bytes executed by the machine model. Distance proved for power-of-two sizes and for non-negative distances; refuted for every negative distance with any other element size (unsigned division)."
  },
  {
   "property": "C39",
   "status": "partial",
   "theorems": [
    "c39_memset",
    "c39_memcpy",
    "c39_memmove",
    "c39_memcmp",
    "c39_strlen",
    "c39_strcpy",
    "c39_strcat",
    "c39_strchr",
    "c39_strrchr",
    "c39_strcmp",
    "c39_first_diff",
    "c39_strchr_unsigned_refuted"
   ],
   "note": "All functions proved; only the conversion of strchr's second argument to char is missing in the code (refuted)."
  },
  {
   "property": "C40",
   "status": "partial",
   "theorems": [
    "c40_strtol_refuted",
    "c40_strtol_partial"
   ],
   "note": "The claim is false: strtol does not return on any number with a non-zero first digit; the digit-free case is proved."
  },
  {
   "property": "C41",
   "status": "partial",
   "theorems": [
    "c41_int_to_str",
    "c41_printf_partial",
    "c41_unsigned_refuted",
    "c41_width_refuted"
   ],
   "note": "Number formatting proved in full; printf follows the standard except %u/%o/%x of negative values and widths on %c/%s (refuted)."
  },
  {
   "property": "C42",
   "status": "partial",
   "theorems": [
    "c42_malloc_partial",
    "c42_malloc_fails_iff",
    "c42_huge_refuted"
   ],
   "note": "Proved for requests that do not wrap around 2^64; refuted for huge ones."
  },
  {
   "property": "C43",
   "status": "partial",
   "theorems": [
    "c43_snprintf",
    "c43_size0_refuted"
   ],
   "note": "Proved for size>=1; refuted for size 0."
  },
  {
   "property": "C44",
   "status": "partial",
   "theorems": [
    "c44_splice_partial",
    "c44_double_backslash_refuted"
   ],
   "note": "False for a backslash before a backslash-newline (refuted); proved otherwise, on one file."
  },
  {
   "property": "C45",
   "status": "proved",
   "theorems": [
    "c45_includes_spliced",
    "c45_command_line_order",
    "c45_deterministic"
   ],
   "note": ""
  },
  {
   "property": "C46",
   "status": "partial",
   "theorems": [
    "c46_line_number",
    "c46_include_and_return",
    "c46_column_refuted"
   ],
   "note": "Line numbers proved; the column number is wrong on first lines (refuted)."
  },
  {
   "property": "C47",
   "status": "proved",
   "theorems": [
    "c47_printf",
    "c47_single",
    "c47_no_params",
    "c47_stale_refuted",
    "c47_empty_precision_refuted",
    "c47_newline_refuted",
    "c47_unsigned_refuted",
    "c47_percent_refuted",
    "c47_zero_precision_refuted",
    "c47_puts_refuted",
    "c47_wide_char_refused",
    "c47_missing_argument_refused",
    "c47_refused_instance",
    "c47_instance"
   ],
   "note": "The parameters are expressions without side effects whose text expands to their value (C19, C27). How an integer is written in a field is an arbitrary function shared by C's and the shell's printf; the shell's printf is assumed to know l and * (bash does) and to ignore arguments when the format takes none. Each exception named in the property is refuted."
  },
  {
   "property": "C48",
   "status": "partial",
   "theorems": [
    "c48_native_program_partial",
    "c48_native_file_partial",
    "ds1_runs",
    "ds5_layout",
    "ds5_runs",
    "c48_initializer_refuted",
    "c48_fall_off_refuted"
   ],
   "note": "Whole programs of the fragment sprog, from source AST to exit status and output on the x86 model; every immediate must fit 32 bits (encodable, decidable); structures and unions as objects and through . and ->; assignment of whole structures; structures as arguments and results, strings, goto, static locals not covered."
  },
  {
   "property": "C49",
   "status": "proved",
   "theorems": [
    "c49_file",
    "c49_unambiguous",
    "c49_statement",
    "c49_declaration",
    "c49_dangling_else",
    "c49_deterministic",
    "c49_storage_class_refuted",
    "c49_goto_refuted",
    "c49_for_declaration_rejected"
   ],
   "note": "Completeness of the parser for the grammar GrammarStmt.v (continuing Grammar.v), and hence unambiguity. The exceptions are refuted by concrete files: a static local with a cast in its initializer is recorded without its storage class, a goto whose semicolon comes from a macro takes another label."
  },
  {
   "property": "C50",
   "status": "partial",
   "theorems": [
    "c50_nested_partial",
    "c50_nested_result_partial",
    "c50_lift_partial",
    "c50_temp_names",
    "c50_partial",
    "c50_result_partial",
    "c50_call_partial",
    "script_exists",
    "script_unique",
    "c50_names",
    "c50_assignment_refuted",
    "c50_putchar_refuted"
   ],
   "note": "For every program of the language of ShProg.v, every shell whose expansions are POSIX's (C19) and every bound on nesting, rounds and output, the script's output and way of ending are those of the C program (c50_partial); the code of such a program always has exactly one reading by the shell grammar (script_exists, script_unique); pnut's names meet the naming conditions (c50_names); c50_instance is a recursive program with a loop, output and an exit status. c50_nested_partial is the same theorem for source programs with calls anywhere in side-effect-free expressions, arguments and conditions (ShNest.v), compiled by taking the calls out into temporaries (c50_lift_partial: this does not change the program; c50_temp_names: the names __t1, __t2, ... collide with nothing); c50_nested_instance is an example. Missing: expressions that mix a call with other side effects, string literals, arrays, malloc and global initialisers, printf and the rest of the runtime library, main with parameters; programs whose meaning depends on the order of the shell's expansions (hst, C19). Refuted in full: an assignment in parentheses as a statement is dropped (c50_assignment_refuted), putchar(x = x + 1) evaluates its argument three times (c50_putchar_refuted)."
  },
  {
   "property": "C51",
   "status": "partial",
   "theorems": [
    "c51_expression_partial",
    "c51_statement_partial",
    "c51_decides_expression_partial",
    "c51_decides_statement_partial",
    "grammar_shaped",
    "statement_shaped",
    "c51_assign_refuted",
    "c51_case_refuted",
    "c51_parameters_refuted",
    "c51_instance"
   ],
   "note": "The converse of C14 and C49. c_shaped states the two things C asks and pnut does not check (left side of an assignment, case label); grammar_shaped and statement_shaped show that C's trees always have them, so acceptance together with c_shaped is equivalent to the C grammar (c51_decides_*). Missing: tokens with type names and type keywords (casts, sizeof of a type, declarations). Refuted without the conditions: a + b = c, case 1, 2:, and f(int a int b,) are accepted."
  },
  {
   "property": "C52",
   "status": "partial",
   "theorems": [
    "c52_partial",
    "c52_program_partial",
    "c52_names",
    "c52_instance",
    "c52_char_refuted",
    "c52_default_build_refuted",
    "c52_members_refuted",
    "c52_tentative_refuted",
    "c52_unset_refuted",
    "c52_list_lost_refuted"
   ],
   "note": "For all lists of global declarations (scalar variables with constant initialisers over earlier constants, arrays with and without lists, strings, enumerations, structures): the emitted commands run to the end in every POSIX shell and every run ends in the C initial state; composed with C50 the script then behaves as the C program from that state. Missing: words of arrays without an initialiser are left unset (C: 0), initialisers that use character constants, string literals in initialiser lists, and arrays with lists declared after arrays without; the refutations show that pnut compiles these wrongly, that the default build (no RT_NO_INIT_GLOBALS) calls an undefined function, that two structures with a common member name stop the script and that a tentative definition resets the variable."
  },
  {
   "property": "C53",
   "status": "partial",
   "theorems": [
    "c53_classes",
    "c53_ascii",
    "c53_case",
    "c53_cntrl_partial",
    "c53_cntrl_refuted"
   ],
   "note": "For every int; iscntrl(127) is refuted. isnumber and isascii are not C functions and are left out."
  },
  {
   "property": "C54",
   "status": "partial",
   "theorems": [
    "c54_fputc",
    "c54_fwrite",
    "c54_puts",
    "c54_fputs_partial",
    "c54_fputs_refuted",
    "c54_fprintf",
    "c54_fputc_result_partial",
    "c54_fputc_result_refuted",
    "c54_fwrite_size0_refuted",
    "c54_fread_partial",
    "c54_fread_full",
    "c54_fread_short_refuted",
    "c54_fread_error_refuted",
    "c54_fread_size0_refuted",
    "c54_fseek_refuted",
    "c54_instance"
   ],
   "note": "write is assumed to succeed; read may deliver any number of bytes or fail. 64-bit size_t. fopen, fclose (stubs) and ftell are not modelled."
  },
  {
   "property": "C55",
   "status": "partial",
   "theorems": [
    "c55_definitions_partial",
    "c55_ifdef",
    "c55_replacement",
    "c55_keyword_refuted",
    "c55_keyword_parameter_refuted",
    "c55_typedef_refuted",
    "c55_malformed_refuted",
    "c55_instance"
   ],
   "note": "For histories of well-formed directives whose macro names are no keywords or typedef names and whose parameters are no keywords (the other cases are refuted). The line is given as its tokens (C07); definitions of builtin macros and -D options are not part of the history."
  },
  {
   "property": "C56",
   "status": "partial",
   "theorems": [
    "c56_text_to_process_partial",
    "c56_text_to_file_partial",
    "c56_front_partial",
    "c56_front_unique",
    "c56_meaning_unique",
    "c56_output_unique",
    "c56_same_tokens",
    "c56_same_meaning",
    "c56_same_tokens_instance",
    "idn0_numbering",
    "text6_program",
    "text6_c",
    "text6_compiles",
    "c56_instance",
    "c56_instance_exec"
   ],
   "note": "Composition of C07, C49 and C48 with the reading of syntax trees by exe.c: from the characters of the file to the machine's output and status. Left out: directives and macros (C08, C10-C12, C55), strings, structures, enumerations, goto, initializer lists, literal suffixes; integer literals below 2^31 (above, C03). Deviations of compiled programs from C are those refuted in C34, C35, C48."
  }
 ]
}