{
 "claims": [
  {
   "property": "C01",
   "status": "proved",
   "theorems": [
    "C01_instruction_roundtrip",
    "C01_instructions_distinct",
    "C01_compiled_images_decode"
   ],
   "note": "Every instruction whose operands fit their fields; encode/decode written from the instr! macro."
  },
  {
   "property": "C02",
   "status": "proved",
   "theorems": [
    "C02_register_numbering",
    "C02_tagged_reference_roundtrip"
   ],
   "note": "Registers and tagged register references."
  },
  {
   "property": "C03",
   "status": "proved",
   "theorems": [
    "C03_packed_array_type",
    "C03_exit_code",
    "C03_vararg_tag"
   ],
   "note": "Packed array types, exit codes and vararg tags."
  },
  {
   "property": "C04",
   "status": "proved",
   "theorems": [
    "C04_flat_index_result",
    "C04_positions_are_a_bijection"
   ],
   "note": "Subscript vectors to positions: value or first-bad error, and a bijection."
  },
  {
   "property": "C05",
   "status": "proved",
   "theorems": [
    "C05_store",
    "C05_load",
    "C05_bad_subscript",
    "C05_create",
    "C05_bad_dimension"
   ],
   "note": "Load, store and creation as executed by the VM instructions, over every heap."
  },
  {
   "property": "C06",
   "status": "proved",
   "theorems": [
    "C06_push_result",
    "C06_allocations_are_kept",
    "C06_clear_empties"
   ],
   "note": "Heap pushes: pointer, bound, shared empty string, preservation."
  },
  {
   "property": "C07",
   "status": "proved",
   "theorems": [
    "C07_pointer_roundtrip",
    "C07_strings_stay_put"
   ],
   "note": "Tagged data pointers and stability of strings."
  },
  {
   "property": "C08",
   "status": "proved",
   "theorems": [
    "C08_exact_or_error",
    "C08_division",
    "C08_bits",
    "C08_shifts"
   ],
   "note": "All checked integer operators against exact integer arithmetic; 32-bit results or errors."
  },
  {
   "property": "C09",
   "status": "proved",
   "theorems": [
    "C09_double_to_integer",
    "C09_integer_to_double_exact",
    "C09_int_function_floors",
    "C09_patterns_are_doubles"
   ],
   "note": "Conversions between doubles (IEEE binary64 patterns through SpecFloat) and integers."
  },
  {
   "property": "C10",
   "status": "proved",
   "theorems": [
    "C10_compiled_jumps_yield",
    "C10_compiled_loop_stops",
    "C10_compiled_programs_stop",
    "C10_instruction_loop_stops",
    "C10_machine_stops",
    "C10_result_unique",
    "C10_jump_handlers_refuted"
   ],
   "note": "Every program that the compiler produces in any session and without ON ERROR GOTO, from every state and with any external callables; with jump handlers it is refuted."
  },
  {
   "property": "C11",
   "status": "proved",
   "theorems": [
    "C11_call_returns",
    "C11_gosub_returns",
    "C11_limits"
   ],
   "note": "Calls and gosubs at any depth, between instruction steps."
  },
  {
   "property": "C12",
   "status": "proved",
   "theorems": [
    "C12_failure_has_no_effect",
    "C12_unhandled",
    "C12_goto",
    "C12_resume_next",
    "C12_resume_next_at_end_refuted"
   ],
   "note": "All handler modes for instruction and callable failures; resuming past the last statement is refuted (the machine panics)."
  },
  {
   "property": "C13",
   "status": "proved",
   "theorems": [
    "C13_failure_changes_nothing",
    "C13_only_accepted_inputs_matter"
   ],
   "note": ""
  },
  {
   "property": "C14",
   "status": "proved",
   "theorems": [
    "C14_inputs_only_append",
    "C14_image_ends_with_the_end_marker",
    "C14_paused_machine_continues"
   ],
   "note": ""
  },
  {
   "property": "C15",
   "status": "proved",
   "theorems": [
    "C15_lookup",
    "C15_order_distinct",
    "C15_insert",
    "C15_listing",
    "C15_update"
   ],
   "note": "Interned identifiers (constants, upcalls, symbols) over every history of insertions."
  },
  {
   "property": "C16",
   "status": "proved",
   "theorems": [
    "C16_lookup",
    "C16_define_local",
    "C16_define_global",
    "C16_registers_distinct",
    "C16_names_distinct",
    "C16_stable",
    "C16_infer_type",
    "C16_callables"
   ],
   "note": "Lookup, definition, stability and distinct registers over every history of definitions."
  },
  {
   "property": "C17",
   "status": "proved",
   "theorems": [
    "C17_no_overlap",
    "C17_take",
    "C17_scopes",
    "C17_reserve"
   ],
   "note": "All nestings of temporary scopes, and reserved temporaries."
  },
  {
   "property": "C18",
   "status": "partial",
   "theorems": [
    "C18_expression_value_partial",
    "C18_converted_value_partial",
    "C18_changes_no_variable_refuted",
    "C18_loop_variables_refuted",
    "C18_double_function_default_refuted"
   ],
   "note": "Proved for every expression without calls and array elements, of any depth; with those, as part of the statements of C20 to C23; refuted for calls without arguments, for temporaries in loops and for the default of DOUBLE functions (C18_*_refuted)."
  },
  {
   "property": "C19",
   "status": "proved",
   "theorems": [
    "C19_compiled_expressions_fit",
    "C19_well_typed_expressions_compile",
    "C19_fitting_types_are_unique",
    "C19_compiled_expressions_are_typed",
    "C19_ill_typed_expressions_are_rejected",
    "C19_types_are_unique",
    "C19_call_free_expressions_compile",
    "C19_typed_expressions_have_values"
   ],
   "note": "Exactly the well-typed expressions compile (calls and array elements included), unless registers, constants or upcalls run out; types are unique; well-typed call-free expressions have values of their type."
  },
  {
   "property": "C20",
   "status": "partial",
   "theorems": [
    "C20_assignment_partial",
    "C20_failing_assignment_partial",
    "C20_calls_refuted"
   ],
   "note": "Proved at any point of any session, with array elements, functions of the host, whatever these do within their contract (host_obeys in Call_Spec.v), and functions of the program, recursive ones too. False, and excluded by computed_apart, when a function of the program reads the variable being assigned (C20_calls_refuted)."
  },
  {
   "property": "C21",
   "status": "partial",
   "theorems": [
    "C21_if_partial",
    "C21_first_true_branch",
    "C21_skipped_branch_refuted"
   ],
   "note": "The compiled IF runs the first branch whose condition holds, from any point of any session, with array elements and calls of the host and of functions and subroutines of the program; variables first assigned in a skipped branch are refuted (C21_skipped_branch_refuted). GOTO, GOSUB and RETURN inside the statement and to labels of blocks around it are included. Missing: ON ERROR, and jumps into a body from outside."
  },
  {
   "property": "C22",
   "status": "partial",
   "theorems": [
    "C22_loops_partial",
    "C22_blocks_partial",
    "C22_programs_partial"
   ],
   "note": "WHILE, DO, FOR, EXIT and blocks run as the structured semantics says, for any nesting, with arrays and with calls of the host and of functions and subroutines of the program; whole programs in a new machine. GOTO, GOSUB and RETURN are included (C66). Missing: ON ERROR, jumps into a body from outside, and loops that do not end."
  },
  {
   "property": "C23",
   "status": "partial",
   "theorems": [
    "C23_select_partial",
    "C23_first_matching_case",
    "C23_first_matching_guard"
   ],
   "note": "SELECT runs the first case that admits the value, with array elements and calls of the host and of functions and subroutines of the program. GOTO, GOSUB and RETURN inside the statement and to labels of blocks around it are included. Missing: ON ERROR, and jumps into a body from outside."
  },
  {
   "property": "C24",
   "status": "proved",
   "theorems": [
    "C24_positions",
    "C24_tab_stops",
    "C24_reader",
    "C24_token_positions"
   ],
   "note": "Reader against positions computed from the text, for any chunking, peeks and source errors; token positions in order. Line lengths of 2^64 are not considered."
  },
  {
   "property": "C25",
   "status": "proved",
   "theorems": [
    "C25_decimal",
    "C25_based",
    "C25_wrong_digits",
    "C25_only_literals"
   ],
   "note": "Literals of any length in every base, both directions. The double literals' rounding is not covered here."
  },
  {
   "property": "C26",
   "status": "proved",
   "theorems": [
    "C26_round_trip",
    "C26_quoted",
    "C26_only_quoted",
    "C26_unterminated",
    "C26_one_meaning",
    "C26_lexer_terminates"
   ],
   "note": "Both directions plus unterminated literals; the lexer terminates on every text."
  },
  {
   "property": "C27",
   "status": "proved",
   "theorems": [
    "C27_precedence",
    "C27_round_trip",
    "C27_one_meaning",
    "C27_only_writings",
    "C27_only_writings_refuted",
    "C27_parser_terminates",
    "C27_text"
   ],
   "note": "Both directions for trees and token sequences of any size: every writing parses to its tree, and everything accepted is a writing, except for three odd forms shown in C27_only_writings_refuted (a value before NOT is dropped, (x)(3) is a call, f(()) is f())."
  },
  {
   "property": "C28",
   "status": "proved",
   "theorems": [
    "C28_history",
    "C28_reads_deterministic",
    "C28_errors"
   ],
   "note": "READ/RESTORE over any sequence of operations refine a history that consumes values one by one; errors: out of data consumes nothing, a value of the wrong type is consumed by the failing READ. Allocation failure of strings left out."
  },
  {
   "property": "C29",
   "status": "proved",
   "theorems": [
    "C29_bounds",
    "C29_dimension_errors",
    "C29_dimension_zero_refuted"
   ],
   "note": "Bounds characterise accepted subscripts for any shape; dimension number 0 is accepted by LBOUND and panics in UBOUND (C29_dimension_zero_refuted)."
  },
  {
   "property": "C30",
   "status": "proved",
   "theorems": [
    "C30_left",
    "C30_right",
    "C30_mid",
    "C30_left_right",
    "C30_len",
    "C30_space",
    "C30_mid_documented_refuted"
   ],
   "note": "LEFT, RIGHT, MID, LEN, SPACE over UTF-8 bytes; the documented one-based MID is refuted (the code is zero-based)."
  },
  {
   "property": "C31",
   "status": "proved",
   "theorems": [
    "C31_instr",
    "C31_unique"
   ],
   "note": "Byte search is shown to agree with character search by UTF-8 self-synchronisation."
  },
  {
   "property": "C32",
   "status": "proved",
   "theorems": [
    "C32_asc",
    "C32_chr"
   ],
   "note": "All integers and all texts."
  },
  {
   "property": "C33",
   "status": "proved",
   "theorems": [
    "C33_accepted_locations",
    "C33_unambiguous",
    "C33_canonical_form",
    "C33_one_canonical_form_refuted",
    "C33_print_parse",
    "C33_drive_case",
    "C33_no_escape",
    "C33_default_extension",
    "C33_mount_uri"
   ],
   "note": "Syntax, meaning, canonical forms, print/parse, default extensions and mount URIs, for all texts; Unicode upper case is any table with the four facts of upper_ok. Two spellings of one file have two canonical forms (C33_one_canonical_form_refuted)."
  },
  {
   "property": "C34",
   "status": "proved",
   "theorems": [
    "C34_current_drive_mounted",
    "C34_no_panic",
    "C34_unmount",
    "C34_unmount_effect",
    "C34_mount",
    "C34_cd",
    "C34_listing_sorted"
   ],
   "note": "Invariant over any sequence of operations, no panics, exact results of mount, unmount and cd."
  },
  {
   "property": "C35",
   "status": "proved",
   "theorems": [
    "C35_put",
    "C35_put_fails",
    "C35_delete",
    "C35_delete_missing",
    "C35_copy",
    "C35_other_operations",
    "C35_enumerate",
    "C35_spelling"
   ],
   "note": "Read-over-write laws with frames for put, delete, copy and all other operations in every reachable state; in-memory and demos drives. The directory and cloud drives are outside the model."
  },
  {
   "property": "C36",
   "status": "proved",
   "theorems": [
    "C36_update",
    "C36_history",
    "C36_put"
   ],
   "note": "One update and any history of updates of a file of an in-memory drive; put keeps the list."
  },
  {
   "property": "C37",
   "status": "proved",
   "theorems": [
    "C37_line_editing",
    "C37_no_panic",
    "C37_prompt_panic_refuted",
    "C37_raw",
    "C37_raw_eof",
    "C37_choice"
   ],
   "note": "Every key sequence gives the line, cursor, history and error of a two-sided list editor, for all widths and prompts; a prompt with wide characters that does not fit panics (refuted variant)."
  },
  {
   "property": "C38",
   "status": "proved",
   "theorems": [
    "C38_screen",
    "C38_no_room_refuted",
    "C38_secure"
   ],
   "note": "The console operations are run on a model of a terminal row. Prompts of one byte per character and consoles of at most 32768 columns; with no room for text the claim is refuted. Passwords: the operations do not depend on the characters typed."
  },
  {
   "property": "C39",
   "status": "proved",
   "theorems": [
    "C39_entered",
    "C39_browsing",
    "C39_up",
    "C39_edits_kept",
    "C39_interrupted",
    "C39_interrupted_refuted"
   ],
   "note": "History through the editor of C37; a line abandoned with Ctrl+C leaves an extra entry (refuted variant)."
  },
  {
   "property": "C40",
   "status": "proved",
   "theorems": [
    "C40_insert",
    "C40_insert_char",
    "C40_remove",
    "C40_split",
    "C40_push",
    "C40_slices",
    "C40_contents"
   ],
   "note": "All operations over UTF-8 bytes, any position."
  },
  {
   "property": "C41",
   "status": "proved",
   "theorems": [
    "C41_keys",
    "C41_leaving",
    "C41_never_panics",
    "C41_screen",
    "C41_screen_at_every_key",
    "C41_screen_after",
    "C41_pixels",
    "C41_tabulator_refuted",
    "C41_wide_space_refuted",
    "C41_status_line_refuted"
   ],
   "note": "For every text, key sequence and console size with one column and two rows: text, cursor, window and status line after each key, no panics, and the same picture in the pixels of the graphical console. Wide whitespace breaks the cursor after a new line, wide names break the status line, and a tabulator that ends at the last column of a console without spare pixels panics (refuted variants)."
  },
  {
   "property": "C42",
   "status": "proved",
   "theorems": [
    "C42_load",
    "C42_load_same",
    "C42_save_load",
    "C42_histories",
    "C42_unmodified_refuted",
    "C42_save_load_refuted"
   ],
   "note": "For every history of loads, saves and edits. Looking at an empty program adds an end of line without the modified flag, and lines that end in a carriage return lose it on each save and load (refuted variants)."
  },
  {
   "property": "C43",
   "status": "proved",
   "theorems": [
    "C43_line",
    "C43_ends",
    "C43_direction"
   ],
   "note": "All pairs of 16-bit endpoints; the error term is shown not to overflow."
  },
  {
   "property": "C44",
   "status": "proved",
   "theorems": [
    "C44_region",
    "C44_nothing",
    "C44_same_look_refuted"
   ],
   "note": "Any display, picture, start and color whose ink looks different from the start; the run is not bounded. Colors of the palette that look the same make the fill endless (refuted variant)."
  },
  {
   "property": "C45",
   "status": "proved",
   "theorems": [
    "C45_start",
    "C45_histories",
    "C45_from_start",
    "C45_sync_on_refuted"
   ],
   "note": "Any sequence of drawing, moving, sync and present operations from any initial device content, against a display without buffers. The raw LCD does not present when synchronization is turned on (refuted variant); the console does it first."
  },
  {
   "property": "C46",
   "status": "proved",
   "theorems": [
    "C46_pixels",
    "C46_rectangles",
    "C46_clipped",
    "C46_beyond_refuted"
   ],
   "note": "Pixels, shapes and rectangles; a rectangle that starts beyond the right or the bottom is drawn on the last column or row (refuted variant)."
  },
  {
   "property": "C47",
   "status": "proved",
   "theorems": [
    "C47_palette",
    "C47_reverse",
    "C47_round_trip",
    "C47_number_round_trip_refuted"
   ],
   "note": "The palette against the xterm definition on the whole u8 domain; reverse lookup for all colours; numbers with duplicate colours do not come back (refuted direction)."
  },
  {
   "property": "C48",
   "status": "proved",
   "theorems": [
    "C48_screenful",
    "C48_prompts",
    "C48_not_interactive"
   ],
   "note": "Every run of prints and writes with any keys on any positive screen size; a zero width or height panics (outside the hypotheses)."
  },
  {
   "property": "C49",
   "status": "proved",
   "theorems": [
    "C49_refill",
    "C49_words_unique",
    "C49_words_and_width",
    "C49_empty",
    "C49_paragraphs",
    "C49_narrow_refuted"
   ],
   "note": "Refilling is exactly greedy filling; the width computation underflow is refuted."
  },
  {
   "property": "C50",
   "status": "proved",
   "theorems": [
    "C50_answers",
    "C50_new",
    "C50_load",
    "C50_load_done",
    "C50_save",
    "C50_save_load",
    "C50_each_command",
    "C50_never_lost",
    "C50_session",
    "C50_leaving",
    "C50_never_panics",
    "C50_end_of_input_refuted",
    "C50_interrupted_question_refuted"
   ],
   "note": "For every host state and every list of commands and answers, and for the REPL loop with any machine. The end of the input at the prompt leaves without asking, and an interrupt at the question before leaving makes the loop fail (refuted variants)."
  },
  {
   "property": "C51",
   "status": "proved",
   "theorems": [
    "C51_val"
   ],
   "note": "The scanner returns the longest number; parsing that literal into a double is the standard library's."
  },
  {
   "property": "C52",
   "status": "proved",
   "theorems": [
    "C52_trim"
   ],
   "note": "White space is Unicode White_Space."
  },
  {
   "property": "C53",
   "status": "proved",
   "theorems": [
    "C53_integers"
   ],
   "note": "Decimal printing and checked parsing as in the standard library."
  },
  {
   "property": "C54",
   "status": "partial",
   "theorems": [
    "C54_running_refuted",
    "C54_compiling_refuted"
   ],
   "note": "False: programs that panic the compiler and the machine are exhibited (C54_running_refuted, C54_compiling_refuted). The fragment of C20 to C23 is proved not to panic."
  },
  {
   "property": "C55",
   "status": "proved",
   "theorems": [
    "C55_tokens",
    "C55_one_meaning",
    "C55_keywords_any_case",
    "C55_shebang"
   ],
   "note": "Equivalence for all texts, for any Unicode tables that agree with ASCII below 128. I/O errors of the source are modelled in the reader (C24) and not in the lexer."
  },
  {
   "property": "C56",
   "status": "proved",
   "theorems": [
    "C56_circle",
    "C56_disc",
    "C56_border_of_disc",
    "C56_edge_cases",
    "C56_far_refuted"
   ],
   "note": "Exact set of pixels for every radius from 2 to 16383 and every center whose circle fits in 16 bits; a circle that does not fit wraps around in release builds (refuted variant)."
  },
  {
   "property": "C57",
   "status": "proved",
   "theorems": [
    "C57_outline",
    "C57_filled",
    "C57_in_box",
    "C57_triangle",
    "C57_far_refuted",
    "C57_degenerate",
    "C57_rectangle",
    "C57_corners",
    "C57_far_corner_refuted"
   ],
   "note": "Exact sets of pixels for polygons of any number of vertices with coordinates up to 16383; beyond, products overflow (refuted variant). A rectangle of two corners leaves out the far one (refuted variant)."
  },
  {
   "property": "C58",
   "status": "proved",
   "theorems": [
    "C58_text",
    "C58_unknown"
   ],
   "note": "Any font and text that fit in 16-bit coordinates."
  },
  {
   "property": "C59",
   "status": "proved",
   "theorems": [
    "C59_start",
    "C59_histories",
    "C59_from_start",
    "C59_cells",
    "C59_full_row_refuted"
   ],
   "note": "Histories of any length on a frame-buffered console, for any font and display with at least one column and two rows; each operation must keep a visible cursor inside. Writing text that exactly fills a row of a display without spare pixels panics when the cursor is visible (refuted variant)."
  },
  {
   "property": "C60",
   "status": "proved",
   "theorems": [
    "C60_cursor_trace",
    "C60_alternate_screen",
    "C60_alternate_errors",
    "C60_ghost_refuted",
    "C60_drawn_under_refuted",
    "C60_previous_char_refuted"
   ],
   "note": "The picture without the cursor is independent of cursor operations; the alternate screen restores everything if the cursor is hidden when entering it. With a visible cursor a ghost remains, and drawings inside the cursor's cell are lost (refuted variants)."
  },
  {
   "property": "C61",
   "status": "proved",
   "theorems": [
    "C61_lines",
    "C61_circles",
    "C61_rectangles",
    "C61_polygons",
    "C61_fill",
    "C61_peek",
    "C61_small_circles"
   ],
   "note": "The shapes of C43, C44, C56 and C57 through the console, with clipping and presentation."
  },
  {
   "property": "C62",
   "status": "proved",
   "theorems": [
    "C62_compiled_commands_fit",
    "C62_fitting_commands_compile",
    "C62_wrong_number_of_arguments",
    "C62_not_a_command",
    "C62_required_value_refuted"
   ],
   "note": "Both directions for every declaration and argument list, with the symbols defined on the way. Any-typed parameters declared as required accept to be missing (refuted variant)."
  },
  {
   "property": "C63",
   "status": "proved",
   "theorems": [
    "C63_command",
    "C63_failing_command",
    "C63_failing_argument",
    "C63_function",
    "C63_result_register_refuted"
   ],
   "note": "For every declaration, argument list and host within its contract (host_obeys in Call_Spec.v), at any point of any session. Results in registers that do not exist yet crash the host (C63_result_register_refuted). Commands may be given variables that are new, whose types they are told, and give them their first value. The host also sees how many things it is given."
  },
  {
   "property": "C64",
   "status": "proved",
   "theorems": [
    "C64_subroutine",
    "C64_function",
    "C64_failing_subroutine"
   ],
   "note": "Any nesting of calls, recursion included, at any point of any session. Calls without arguments in expressions are covered by the theorems of C20 to C23 except where C18_changes_no_variable_refuted says; the default of DOUBLE functions is refuted (C18_double_function_default_refuted). END within a body and definitions within other statements are not covered."
  },
  {
   "property": "C65",
   "status": "proved",
   "theorems": [
    "C65_programs_parse",
    "C65_one_meaning",
    "C65_only_programs",
    "C65_parser_terminates",
    "C65_before_error",
    "C65_text",
    "C65_lines_independent_refuted",
    "C65_command_comparison_refuted"
   ],
   "note": "Both directions: every writing of a program parses to it, and what is accepted is a writing of the result, unless it has one of the three odd forms of C27_only_writings_refuted (usual_program). Messages of errors are modelled, but the claim only says that there is one."
  },
  {
   "property": "C66",
   "status": "proved",
   "theorems": [
    "C66_goto",
    "C66_gosub",
    "C66_failing_gosub",
    "C66_return_without_gosub"
   ],
   "note": "Labels of the block around the GOSUB; jumps into bodies of other statements and END within a GOSUB are not covered. Variables that get their first value in a GOSUB are said to be forgotten, as in loops. Whole programs with jumps are covered by C22_programs_partial and C22_blocks_partial."
  },
  {
   "property": "C67",
   "status": "proved",
   "theorems": [
    "C67_console_obeys",
    "C67_print",
    "C67_fields",
    "C67_fields_refuted",
    "C67_lines_refuted"
   ],
   "note": "At any point of any session (C67_print, C67_console_obeys); how doubles are shown is a parameter (Rust's formatting). Columns count bytes and start at the command, so alignment is refuted for other texts (C67_fields_refuted, C67_lines_refuted)."
  },
  {
   "property": "C68",
   "status": "proved",
   "theorems": [
    "C68_color",
    "C68_color_short",
    "C68_locate",
    "C68_statement",
    "C68_no_columns_refuted"
   ],
   "note": "Both about what the commands do with the registers and positions that they are given and, at any point of any session, about the statements (C68_statement); a console without columns is refuted (C68_no_columns_refuted)."
  },
  {
   "property": "C69",
   "status": "proved",
   "theorems": [
    "C69_input",
    "C69_refused",
    "C69_new"
   ],
   "note": "From the text to the outcome, through the models of lexer, parser, compiler and machine, for every session; memory may run out (overflows). The statements are those that C20 to C23 cover (no ON ERROR, and errors without a handler). A new machine is said to rest if there are no global definitions."
  },
  {
   "property": "C70",
   "status": "proved",
   "theorems": [
    "C70_again",
    "C70_break",
    "C70_break_after_command",
    "C70_clear",
    "C70_clear_ends",
    "C70_run",
    "C70_after_error_refuted"
   ],
   "note": "For every host and every point of a run at which nobody interrupted before. After an error or interruption within a subroutine the frame is not left, and the next input sees other variables (C70_after_error_refuted)."
  },
  {
   "property": "C71",
   "status": "proved",
   "theorems": [
    "C71_loop",
    "C71_input_obeys",
    "C71_input",
    "C71_failing_input"
   ],
   "note": "At any point of any session (C71_input, C71_failing_input, C71_input_obeys). What reads a line from the console, Unicode's upper case and Rust's parser of doubles are parameters; an endless sequence of wrong lines is a run without end, which is why the number of lines is bounded by a number that is any."
  },
  {
   "property": "C72",
   "status": "proved",
   "theorems": [
    "C72_data_order",
    "C72_session_data",
    "C72_data_obeys",
    "C72_read",
    "C72_failing_read",
    "C72_restore"
   ],
   "note": "The data of images: C72_data_order, C72_session_data. The commands at any point of any session: C72_read, C72_failing_read, C72_restore, C72_data_obeys. Integers among the data are assumed to be of 32 bits, as the parser makes them. What the variables hold after a READ that fails half way is not said."
  },
  {
   "property": "C73",
   "status": "proved",
   "theorems": [
    "C73_library_obeys",
    "C73_gpio_obeys",
    "C73_every_call",
    "C73_statement",
    "C73_read",
    "C73_mock_obeys",
    "C73_trace",
    "C73_trace_text",
    "C73_mock_reads",
    "C73_failed_read_refuted"
   ],
   "note": "Any library callable that is given values only: C73_library_obeys. Programs: C73_statement, C73_read, C73_every_call. The mock: C73_trace, C73_trace_text, C73_mock_reads. C73_failed_read_refuted: a read of another pin fails but takes the injected level, so that the read of the right pin fails too. The Raspberry Pi back end is not modelled."
  },
  {
   "property": "C74",
   "status": "proved",
   "theorems": [
    "C74_numerics_obeys",
    "C74_every_call",
    "C74_function",
    "C74_statement",
    "C74_int_fix",
    "C74_absolute",
    "C74_maximum",
    "C74_minimum",
    "C74_maximum_refuted",
    "C74_state_kept",
    "C74_random_repeats",
    "C74_random_last",
    "C74_random_seed",
    "C74_random_range"
   ],
   "note": "Programs: C74_numerics_obeys, C74_function, C74_statement, C74_every_call. Values: C74_int_fix, C74_absolute, C74_maximum, C74_minimum. Random numbers: C74_random_repeats, C74_random_last, C74_random_seed, C74_random_range, C74_state_kept. C74_maximum_refuted: MAX of minus infinity or NaN is the least finite double. The functions of libm and the generator of the rand crate are parameters."
  },
  {
   "property": "C75",
   "status": "proved",
   "theorems": [
    "C75_resolution",
    "C75_resolution_error",
    "C75_every_text",
    "C75_flags",
    "C75_finish",
    "C75_typed",
    "C75_empty_refuted"
   ],
   "note": "C75_resolution, C75_resolution_error, C75_every_text, C75_flags, C75_finish, C75_typed. C75_empty_refuted: an empty specification panics."
  },
  {
   "property": "C76",
   "status": "proved",
   "theorems": [
    "C76_strings_obeys",
    "C76_every_call",
    "C76_function",
    "C76_left_mid",
    "C76_asc_chr",
    "C76_chr_asc",
    "C76_val_str",
    "C76_trim_again"
   ],
   "note": "C76_strings_obeys, C76_function, C76_every_call; C76_left_mid, C76_asc_chr, C76_chr_asc, C76_val_str, C76_trim_again. Changes of case, how doubles are shown and what number a literal is are parameters. INSTR for texts shorter than 2^31 - 1 characters."
  },
  {
   "property": "C77",
   "status": "proved",
   "theorems": [
    "C77_gfx_obeys",
    "C77_every_call",
    "C77_function",
    "C77_statement",
    "C77_in_range",
    "C77_unchanged"
   ],
   "note": "C77_gfx_obeys, C77_function, C77_statement, C77_every_call, C77_in_range, C77_unchanged. The console is a parameter. Polygons in arrays are not modelled."
  },
  {
   "property": "C78",
   "status": "proved",
   "theorems": [
    "C78_extract",
    "C78_panics",
    "C78_ascii",
    "C78_any_script_refuted"
   ],
   "note": "C78_extract (all answers, both ways), C78_panics (exactly when it panics), C78_ascii. C78_any_script_refuted: a second line with a character across its fourth and fifth bytes panics. Errors in reading files and texts that are not UTF-8 are left out."
  }
 ]
}