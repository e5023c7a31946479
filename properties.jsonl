{"id": "C01", "title": "Bytecode instructions survive encoding", "statement": "Every instruction the compiler can emit is packed in a 32-bit word such that decoding the word gives back the same opcode and the same operands; two different instructions never share a word.", "quantifier": "every instruction of every opcode with every in-range operand combination", "why_tests_cant": "There are about 2^24 operand combinations per three-register opcode; unit tests check a handful of literals per opcode.", "anchors": ["core/src/bytecode.rs: instr!, make_*, parse_*, opcode_of, Opcode"]}
{"id": "C02", "title": "Register references identify exactly one variable slot", "statement": "Global slots 0..63 and local slots 0..190 map to disjoint register numbers, converting a register back tells the same scope and slot, out-of-range slots are rejected, and a tagged reference (type plus absolute register) survives conversion to and from its 64-bit pointer form.", "quantifier": "every slot number, scope, type and frame base", "why_tests_cant": "The unit tests sample boundaries; distinctness quantifies over all pairs.", "anchors": ["core/src/bytecode.rs: Register, TaggedRegisterRef"]}
{"id": "C03", "title": "Packed descriptors round-trip and reject exactly the unrepresentable", "statement": "Array type descriptors, variable-argument tags and exit codes decode to what was encoded; construction fails exactly when the value does not fit (more than 15 dimensions, exit code outside 0..127).", "quantifier": "every type, dimension count, separator, tag kind and exit code", "why_tests_cant": "Exhaustiveness over all encodings and over all rejected integers.", "anchors": ["core/src/bytecode.rs: PackedArrayType, VarArgTag, ExitCode"]}
{"id": "C04", "title": "Array subscripts address distinct in-bounds elements", "statement": "For an array with given positive dimensions, every in-range subscript vector maps to an offset inside the backing storage, different vectors map to different offsets, every offset is reached, and any negative or too large subscript is reported as an error naming the offending subscript and limit.", "quantifier": "every dimension vector and every subscript vector", "why_tests_cant": "Injectivity and surjectivity over unbounded numbers of dimensions and sizes cannot be enumerated.", "anchors": ["core/src/mem.rs: ArrayData::flat_index"]}
{"id": "C05", "title": "Array writes are seen by later reads and disturb nothing else", "statement": "After storing a value in an array element, reading that element gives the value, reading any other element of the same or another array gives what it gave before, and all strings keep their contents.", "quantifier": "every heap, array, subscript vector and value", "why_tests_cant": "Non-interference quantifies over all pairs of locations in any heap.", "anchors": ["core/src/vm/context.rs: do_load_array, do_store_array", "core/src/mem.rs: Heap"]}
{"id": "C06", "title": "Heap pointers stay valid and the heap limit is enforced", "statement": "Allocating on the runtime heap either returns a reference that from then on always yields the stored value, or fails with an out-of-space error when and only when the limit is reached; empty strings never consume space; earlier references never change meaning; the heap never exceeds its limit.", "quantifier": "every sequence of allocations, of any length and values, and every limit", "why_tests_cant": "Quantifies over allocation histories.", "anchors": ["core/src/mem.rs: Heap::push, Heap::get, Heap::clear, DatumPtr"]}
{"id": "C07", "title": "String references resolve to the right pool", "statement": "A string register value that refers to a compile-time constant or to a run-time heap string is resolved to exactly that string; the two reference spaces never collide, for every index in range.", "quantifier": "every constant index and heap index below 2^24", "why_tests_cant": "2^25 references; tests sample a few.", "anchors": ["core/src/mem.rs: DatumPtr::from, for_heap, resolve_string"]}
{"id": "C08", "title": "Integer arithmetic is exact or an error", "statement": "Every 32-bit integer operation (add, subtract, multiply, divide, modulo, power, negate, shifts) yields the mathematically exact result when it is representable and otherwise raises the documented run-time error; it never wraps silently and never crashes.", "quantifier": "all pairs of 32-bit operands", "why_tests_cant": "2^64 operand pairs per operator.", "anchors": ["core/src/vm/context.rs: do_*_integer, do_shift_*, integer helpers"]}
{"id": "C09", "title": "Double to integer conversion rounds half away from zero or fails", "statement": "Converting a double to an integer yields the nearest integer with ties away from zero when that fits in 32 bits; otherwise (too large, infinite, NaN) an error is raised.", "quantifier": "all 2^64 double bit patterns", "why_tests_cant": "Cannot enumerate all doubles; boundary behaviour near 2^31 matters.", "anchors": ["std/src/numerics.rs: double_to_integer", "core/src/vm/context.rs: do_double_to_integer"]}
{"id": "C10", "title": "Execution always comes back to the host", "statement": "Starting from any point of any program that does not install a jump error handler, the machine reaches a stop (end, error, yield, upcall, end of program) after finitely many instructions, so the host can always interrupt a running program.", "quantifier": "every program compiled in any session without ON ERROR GOTO, every machine state whose handler does not jump, every behaviour of the external callables", "why_tests_cant": "Non-termination cannot be detected by tests; it ranges over all programs.", "anchors": ["core/src/vm/context.rs: exec, do_jump, do_jump_if_false", "core/src/vm/mod.rs: Vm::exec", "core/src/compiler/top.rs: compile_stmt", "core/src/compiler/codegen.rs: mark_statement_start"]}
{"id": "C11", "title": "Calls nest properly and recursion is bounded", "statement": "A GOSUB or user call returns to the instruction right after it with the caller's frame restored, unmatched RETURN is an error, and nesting deeper than the fixed limit is an error instead of unbounded growth.", "quantifier": "every machine state and every call/return sequence", "why_tests_cant": "Ranges over all nesting depths and histories.", "anchors": ["core/src/vm/context.rs: do_call, do_gosub, do_return"]}
{"id": "C12", "title": "Error handlers act as documented", "statement": "When an instruction fails: with no handler the program stops reporting the error and its position; with RESUME NEXT execution continues at the next statement boundary after the failing one; with GOTO execution continues at the label; in the handled cases the last error is recorded and no exception escapes.", "quantifier": "every program image, failing instruction and handler state", "why_tests_cant": "Ranges over all programs and failure points.", "anchors": ["core/src/vm/mod.rs: handle_exception", "core/src/vm/context.rs: set_pc, do_set_error_handler"]}
{"id": "C13", "title": "A failed incremental compilation changes nothing", "statement": "If compiling more input fails, the compiler and the image are exactly as before, so the next input behaves as if the failed one had never been entered.", "quantifier": "every compiler state and every failing input", "why_tests_cant": "Ranges over all failing inputs and failure points inside the compiler.", "anchors": ["core/src/compiler/mod.rs: Compiler::compile_more"]}
{"id": "C14", "title": "Incremental compilation only appends", "statement": "Compiling more input keeps all previously produced instructions (other than the trailing end marker), constants, data values and upcall numbers at the same positions, so addresses held by a paused machine remain valid.", "quantifier": "every sequence of successful incremental compilations", "why_tests_cant": "Ranges over histories of inputs.", "anchors": ["core/src/compiler/codegen.rs: build_image_delta", "core/src/image.rs: Image::append"]}
{"id": "C15", "title": "Identifiers of interned items are stable, unique and dense", "statement": "Interning assigns consecutive identifiers from zero, the same key always gets the same identifier, different keys get different ones, listing returns keys in identifier order, and running out of identifiers is reported instead of wrapping.", "quantifier": "every sequence of insertions and lookups", "why_tests_cant": "Ranges over operation histories.", "anchors": ["core/src/compiler/ids.rs: HashMapWithIds"]}
{"id": "C16", "title": "Variable lookup is case-insensitive, scoped and type-checked", "statement": "A name resolves to the local variable of that name if there is one and otherwise to the global one, ignoring ASCII case, and a mismatching type suffix is rejected; defining a variable never changes the register of another; two variables live in the same scope never share a register.", "quantifier": "every sequence of definitions and every reference", "why_tests_cant": "Ranges over definition histories and all name pairs.", "anchors": ["core/src/compiler/syms.rs: get_var, put_var, GlobalSymtable, LocalSymtable, SymbolKey"]}
{"id": "C17", "title": "Temporaries never overlap variables or each other", "statement": "While an expression is being compiled, each live temporary register is different from every variable register and from every other live temporary; running out of registers is reported as an error.", "quantifier": "every number of locals, every nesting of temporary scopes", "why_tests_cant": "Ranges over all expression shapes.", "anchors": ["core/src/compiler/syms.rs: TempScope, TempSymtable, with_reserved_temp"]}
{"id": "C18", "title": "Compiled expressions compute the value of the source expression", "statement": "Running the code generated for an expression leaves in its destination the value (or raises the run-time error) that a direct left-to-right evaluation of the expression prescribes, and changes no variable.", "quantifier": "every well-typed expression of any size and every variable assignment", "why_tests_cant": "Ranges over all expressions and all states.", "anchors": ["core/src/compiler/exprs.rs: compile_expr, peel_ops, compile_pending_ops", "core/src/vm/context.rs"]}
{"id": "C19", "title": "Type promotion and type errors are decided before running", "statement": "The static type of an expression depends only on operand types: mixed integer/double promotes to double, relational operators give booleans, text concatenates only with text, and any other combination is rejected at compile time.", "quantifier": "every expression", "why_tests_cant": "Ranges over all expression trees.", "anchors": ["core/src/compiler/exprs.rs: compile_pending_ops, resolve_numeric_binary_type, cast_numerical_type"]}
{"id": "C20", "title": "Assignments store the evaluated value only in the named variable", "statement": "After an assignment that does not fail, the named variable holds the value of the expression converted to the variable's type, and every other variable is unchanged, also when the expression mentions the variable being assigned.", "quantifier": "every assignment and program state", "why_tests_cant": "Ranges over all expressions and states, in particular self references.", "anchors": ["core/src/compiler/top.rs: compile_assignment, expr_references_symbol"]}
{"id": "C21", "title": "IF runs exactly the first branch whose guard holds", "statement": "An IF statement evaluates guards in order, runs the body of the first true one and skips all others, then continues after END IF.", "quantifier": "every IF statement with any number of branches and every state", "why_tests_cant": "Ranges over all statement shapes including nesting.", "anchors": ["core/src/compiler/top.rs: compile_if"]}
{"id": "C22", "title": "Loops run their body as specified", "statement": "WHILE, DO (all five guard forms) and FOR loops run their bodies as in the structured reading of the statement, including EXIT DO and EXIT FOR.", "quantifier": "every loop, body and state", "why_tests_cant": "Ranges over unbounded iteration counts and nestings.", "anchors": ["core/src/compiler/top.rs: compile_while, compile_do, compile_for"]}
{"id": "C23", "title": "SELECT CASE runs exactly the first matching case", "statement": "SELECT evaluates its expression once, tests the guards in order and runs only the first matching body, or the CASE ELSE body, or nothing.", "quantifier": "every SELECT statement and state", "why_tests_cant": "Ranges over all statements.", "anchors": ["core/src/compiler/top.rs: compile_select, compile_case_guard"]}
{"id": "C24", "title": "Source positions follow lines, columns and tab stops", "statement": "The position reported for each character is one more than the number of preceding newlines, and a column counting characters since the last newline with tabs advancing to the next multiple of eight.", "quantifier": "every input text", "why_tests_cant": "Ranges over all texts.", "anchors": ["core/src/reader.rs: CharReader"]}
{"id": "C25", "title": "Integer literals denote their value or are rejected", "statement": "Decimal, hexadecimal, octal and binary literals produce exactly the denoted 32-bit integer, and literals out of range are errors.", "quantifier": "every digit string of any length in any base", "why_tests_cant": "Unbounded digit strings.", "anchors": ["core/src/lexer.rs: consume_number, consume_integer"]}
{"id": "C26", "title": "Text literals can carry any text", "statement": "Quoting any text by escaping quotes and backslashes and lexing it gives one text token with exactly that text.", "quantifier": "every text", "why_tests_cant": "All strings.", "anchors": ["core/src/lexer.rs: consume_text"]}
{"id": "C27", "title": "Operator precedence and associativity", "statement": "Parsing an expression printed with only the parentheses required by the documented precedence levels gives back the same expression tree: NOT and unary minus, ^, * / MOD, + -, shifts, relational, AND OR XOR, with left associativity.", "quantifier": "every expression tree", "why_tests_cant": "Ranges over all trees of any depth.", "anchors": ["core/src/parser.rs: parse_expr, ExprOp::priority, ExprSpan::add_operator"]}
{"id": "C28", "title": "DATA values are read in order, once each, until exhausted", "statement": "READ consumes data values in program order, RESTORE goes back to the first, missing values read as defaults, and reading past the end is an error.", "quantifier": "every data list and every sequence of READ/RESTORE", "why_tests_cant": "Ranges over histories.", "anchors": ["std/src/data.rs: ReadCommand, RestoreCommand"]}
{"id": "C29", "title": "Array bounds functions agree with indexing", "statement": "LBOUND is 0 and UBOUND is the largest accepted subscript for the requested dimension; invalid dimension numbers are errors.", "quantifier": "every array shape and dimension argument", "why_tests_cant": "All shapes.", "anchors": ["std/src/arrays.rs: parse_bound_args"]}
{"id": "C30", "title": "Text slicing functions", "statement": "LEFT, RIGHT and MID return exactly the requested characters (not bytes), clamped to the text; together LEFT and RIGHT rebuild the text; negative counts are errors.", "quantifier": "every Unicode text and every integer argument", "why_tests_cant": "All strings and integers.", "anchors": ["std/src/strings.rs: LEFT, RIGHT, MID, slice_by_char_range"]}
{"id": "C31", "title": "INSTR finds the first occurrence", "statement": "INSTR returns the smallest position at or after the requested start where the needle occurs, counting characters, and 0 when there is none.", "quantifier": "every haystack, needle and start", "why_tests_cant": "All strings.", "anchors": ["std/src/strings.rs: INSTR"]}
{"id": "C32", "title": "ASC and CHR are inverse", "statement": "CHR of ASC of a one character text gives the text back and ASC of CHR of any valid code gives the code back; invalid codes are errors.", "quantifier": "every code point and integer", "why_tests_cant": "All 2^32 integers.", "anchors": ["std/src/strings.rs: ASC, CHR"]}
{"id": "C33", "title": "Drive and path syntax", "statement": "Parsing a location accepts exactly the documented syntax, drive names are case-insensitive, printing then parsing a location is the identity, and no accepted location contains a separator that would escape the drive directory.", "quantifier": "every text", "why_tests_cant": "All strings.", "anchors": ["std/src/storage/mod.rs: DriveKey, Location"]}
{"id": "C34", "title": "The current drive is always mounted", "statement": "After any sequence of mount, unmount, attach and cd operations the current drive is mounted; unmounting the current or an unknown drive fails without effect; mounting an already used name fails without effect.", "quantifier": "every sequence of storage operations", "why_tests_cant": "Histories.", "anchors": ["std/src/storage/mod.rs: Storage::mount, unmount, cd, attach"]}
{"id": "C35", "title": "Files read back what was last written", "statement": "A file reads back as the last content put, other files are unchanged by put and delete, delete removes, copy duplicates, and enumerate lists exactly the files that exist.", "quantifier": "every sequence of put, delete, copy over every set of names", "why_tests_cant": "Histories.", "anchors": ["std/src/storage/mem.rs: InMemoryDrive", "std/src/storage/mod.rs: Storage::put, get, delete, copy, enumerate"]}
{"id": "C36", "title": "Access control lists are sets with add and remove", "statement": "After any sequence of updates a reader is listed iff its last mention was an addition (removals applied before additions in one update), listing is sorted, and overwriting a file keeps its list.", "quantifier": "every sequence of updates", "why_tests_cant": "Histories.", "anchors": ["std/src/storage/mem.rs: update_acls, get_acls, put"]}
{"id": "C37", "title": "Line editing equals list editing", "statement": "The interactive line reader returns exactly the line obtained by applying the pressed keys to a simple list-with-cursor editor, for every key sequence and console width.", "quantifier": "every key sequence, prompt, initial text and console width", "why_tests_cant": "Histories of keys; widths.", "anchors": ["std/src/console/readline.rs: Readline, read_line", "std/src/console/linebuffer.rs"]}
{"id": "C38", "title": "The screen shows the line being edited", "statement": "After every key the console row shows the visible window of the line and the cursor is on the insertion point, however long the line is compared to the console.", "quantifier": "every key sequence, line length and console width", "why_tests_cant": "Histories of keys; widths.", "anchors": ["std/src/console/readline.rs: redraw_line, adjust_view, do_*"]}
{"id": "C39", "title": "History browsing never corrupts history", "statement": "Moving up and down through history shows previous entries, keeps edits made while browsing in their slot, and on finish stores the entered line last (or nothing when empty).", "quantifier": "every history and key sequence", "why_tests_cant": "Histories.", "anchors": ["std/src/console/readline.rs: do_up_down, finish"]}
{"id": "C40", "title": "Character-based line buffer laws", "statement": "Insertion, removal, splitting and slicing of the line buffer act on characters at the given positions exactly like the corresponding list operations, for all Unicode text and out-of-range positions.", "quantifier": "every text and position", "why_tests_cant": "All strings.", "anchors": ["std/src/console/linebuffer.rs"]}
{"id": "C41", "title": "Full-screen editor keeps a valid cursor and loses no text", "statement": "Under any key sequence the editor cursor stays inside the buffer, the buffer always has a line under the cursor, typing inserts exactly the typed character at the cursor, and joining/splitting lines preserves the text.", "quantifier": "every buffer and key sequence", "why_tests_cant": "Histories.", "anchors": ["repl/src/editor.rs: Editor"]}
{"id": "C42", "title": "Program text round-trips through the editor", "statement": "Loading a program in the editor and reading it back gives the same lines; the modified flag is set by every change of text and cleared by load, new and save.", "quantifier": "every program text and key sequence", "why_tests_cant": "All texts, histories.", "anchors": ["repl/src/editor.rs: Program impl", "std/src/program.rs"]}
{"id": "C43", "title": "Lines are drawn between their endpoints", "statement": "Drawing a line plots both endpoints, stays within their bounding box, plots a connected set, and plots exactly max(|dx|,|dy|)+1 pixels.", "quantifier": "every pair of 16-bit endpoints", "why_tests_cant": "2^64 pairs.", "anchors": ["std/src/console/drawing.rs: draw_line, draw_line_low, draw_line_high"]}
{"id": "C44", "title": "Bucket fill colours exactly the connected region", "statement": "Bucket fill recolours exactly the pixels 4-connected to the start pixel through pixels of its colour, leaves all others, and terminates.", "quantifier": "every picture, size, start and colour", "why_tests_cant": "All pictures.", "anchors": ["std/src/console/drawing.rs: bucket_fill"]}
{"id": "C45", "title": "Buffered display shows what was drawn", "statement": "For every sequence of drawing operations, clipped to the display, the device shows the frame buffer content whenever synchronization is on and after every explicit presentation.", "quantifier": "every sequence of drawing, sync and present operations", "why_tests_cant": "Histories.", "anchors": ["std/src/gfx/lcd/buffered/mod.rs: BufferedLcd"]}
{"id": "C46", "title": "Off-screen drawing has no visible effect", "statement": "Drawing pixels or rectangles that lie entirely outside the display changes nothing.", "quantifier": "every coordinate and size", "why_tests_cant": "2^64 combinations.", "anchors": ["std/src/gfx/lcd/buffered/mod.rs: clip_xy, clamp_xy, clip_x2y2, draw_rect_filled"]}
{"id": "C47", "title": "Colour table conversions", "statement": "Each of the 256 colours maps to a fixed RGB, out-of-range numbers wrap, and converting an RGB of the palette to a colour number and back is the identity.", "quantifier": "every colour number and RGB value", "why_tests_cant": "2^24 RGB values.", "anchors": ["std/src/console/colors.rs"]}
{"id": "C48", "title": "Long output pauses at least once per screen", "statement": "When paging is active no more than a screenful of lines is printed between prompts.", "quantifier": "every sequence of lines and console size", "why_tests_cant": "Histories.", "anchors": ["std/src/console/pager.rs"]}
{"id": "C49", "title": "Paragraph refilling preserves words and width", "statement": "Refilling a paragraph preserves the sequence of words and produces no line wider than requested unless it holds one single word.", "quantifier": "every paragraph and width", "why_tests_cant": "All texts.", "anchors": ["std/src/console/format.rs"]}
{"id": "C50", "title": "Unsaved programs are not dropped silently", "statement": "A modified stored program is replaced (NEW, LOAD) or left behind (END in the REPL) only after the user was asked and answered yes, in any case; any other answer keeps program and machine as they were. A failed LOAD keeps the program. SAVE clears the modified mark only once a file with the text is in the storage, and loading that file gives the text again without a question. Whatever commands follow, a modified program to whose loss the user never agrees is still there with its later edits, or was saved with them.", "quantifier": "every program, storage, answer, command sequence and session", "why_tests_cant": "The claim is about every history of commands and every answer; tests try a handful of each.", "anchors": ["std/src/program.rs: continue_if_modified, LoadCommand, NewCommand, SaveCommand", "repl/src/lib.rs: run_repl_loop", "std/src/strings.rs: parse_boolean"]}
{"id": "C51", "title": "VAL reads the longest numeric prefix", "statement": "VAL skips leading white space and reads the longest prefix of the text that is a number, giving 0 exactly when there is none, and never fails.", "quantifier": "every text", "why_tests_cant": "The longest-prefix claim compares against every prefix of every text; examples check a few.", "anchors": ["std/src/strings.rs: parse_numeric_prefix"]}
{"id": "C52", "title": "Trimming removes exactly the outer white space", "statement": "LTRIM, RTRIM and TRIM return the text without its leading and/or trailing white space and with everything in between intact.", "quantifier": "every Unicode text", "why_tests_cant": "Every text with any white space characters at either end.", "anchors": ["std/src/strings.rs: LTRIM, RTRIM, TRIM"]}
{"id": "C53", "title": "Integers and their text are inverse", "statement": "The text of an integer denotes that integer and reading it back gives it; reading accepts exactly the signed digit strings whose value fits 32 bits.", "quantifier": "every integer and every text", "why_tests_cant": "2^32 integers and all texts, including the extremes and overflows by one.", "anchors": ["std/src/strings.rs: format_integer, parse_integer"]}
{"id": "C54", "title": "Programs cannot crash the interpreter", "statement": "No BASIC program makes the compiler or the machine panic: compiling it gives an image or an error, and running it ends, yields or raises an error.", "quantifier": "every program text and every state in which it is run", "why_tests_cant": "Panics hide in combinations of features (undefined branches, missing definitions, omitted subscripts) that no list of programs covers.", "anchors": ["core/src/compiler/top.rs: compile_stmt, compile", "core/src/compiler/codegen.rs: apply_fixups", "core/src/vm/context.rs: exec"]}
{"id": "C55", "title": "Source text means exactly its tokens", "statement": "The lexer accepts a text exactly when it is a sequence of token spellings, blanks and comments, and then gives those tokens; keywords are recognised in any letter case, a first line starting with #! is skipped, and no text can be read in two ways.", "quantifier": "every text", "why_tests_cant": "The equivalence quantifies over every text and every token sequence, including longest-match choices such as < against <= and words against keywords.", "anchors": ["core/src/lexer.rs: Lexer::read and the consume functions"]}
{"id": "C56", "title": "Circles and discs are the right pixels", "statement": "A circle of a center and radius draws exactly the outermost pixels of the disc in each direction (the four tips at distance r are left out), a filled circle draws exactly the disc, the border is part of the disc, and drawing always ends.", "quantifier": "every center and radius whose circle fits in the coordinates", "why_tests_cant": "Every center and radius up to 16383; the algorithm keeps running errors that could overflow or drift.", "anchors": ["std/src/console/drawing.rs: draw_circle, draw_circle_filled"]}
{"id": "C57", "title": "Polygons, triangles and rectangles are filled and outlined exactly", "statement": "The outline of a polygon is the lines of all of its edges; a filled one also has exactly the pixels inside by the even-odd rule; rectangles are the border of their corners; degenerate shapes are recognised.", "quantifier": "every list of vertices of any length, convex or not, and every rectangle", "why_tests_cant": "Polygons of any number of vertices in any position.", "anchors": ["std/src/console/drawing.rs: draw_poly, fill_polygon, edge_intersection, draw_tri, draw_rect", "std/src/console/graphics.rs: rect_points, tri_points, poly_points"]}
{"id": "C58", "title": "Text is drawn as its glyphs side by side", "statement": "The pixels of a text drawn with a bitmap font are exactly the dots of the glyphs of its characters, each one a glyph width to the right of the previous one; characters without a glyph look like a question mark.", "quantifier": "every font, text and position that fits in the coordinates", "why_tests_cant": "Every text of any length and every font.", "anchors": ["std/src/console/drawing.rs: draw_char, draw_text", "std/src/gfx/lcd/fonts/mod.rs: Font::glyph"]}
{"id": "C59", "title": "Console text flows in cells", "statement": "On a graphical console, text is typed character by character in a grid of cells: a character paints its glyph in the foreground color over the background in its cell and nothing else; a full row continues in the next one; and after the last row everything scrolls up by one row. No sequence of console operations that keeps the cursor inside panics, and the device shows the result exactly when synchronization or a present asks for it.", "quantifier": "every display and font size, text, picture and sequence of operations", "why_tests_cant": "Sequences of operations of any length over every size of display and font.", "anchors": ["std/src/console/graphics.rs: GraphicsConsole (write, print, clear, locate, move_within_line, open_line, raw_write_wrapped)"]}
{"id": "C60", "title": "The cursor and the alternate screen leave no trace", "statement": "Showing, hiding and moving the cursor does not change the picture under it, and leaving the alternate screen restores the picture, the cursor position and the colors as they were.", "quantifier": "every picture, every sequence of operations and every moment to enter the alternate screen", "why_tests_cant": "The saved pixels must be right after every sequence of operations.", "anchors": ["std/src/console/graphics.rs: draw_cursor, clear_cursor, enter_alt, leave_alt, hide_cursor, show_cursor"]}
{"id": "C61", "title": "Console drawing commands paint exactly their shape", "statement": "Pixels, lines, circles, rectangles, triangles, polygons and fills of the console paint exactly the pixels of the shape in the foreground color, leave all others and the cursor alone, and appear on the device if synchronization is on; peeking gives the color number of a pixel, and nothing outside of the display.", "quantifier": "every shape, picture, display and state of the console", "why_tests_cant": "Every shape at every place, partly or totally outside of the display.", "anchors": ["std/src/console/graphics.rs: draw_pixel, draw_line, draw_circle, draw_rect, draw_tri, draw_poly, bucket_fill, peek_pixel"]}
{"id": "C62", "title": "Commands are accepted exactly when their arguments match their declaration", "statement": "A command compiles if and only if its arguments match the first of its declared forms that takes so many: each value of the declared type or convertible to it, each reference a variable of the declared kind, each separator one of the declared ones, and missing arguments only where they are declared optional; new names in output positions become variables of the annotated type, and no other symbol is defined.", "quantifier": "every declaration of a command, every list of arguments and every set of symbols", "why_tests_cant": "Declarations combine fixed, optional, any-typed and repeated parameters with separators; tests cover a few of the combinations.", "anchors": ["core/src/compiler/args.rs: compile_args, define_new_args, validate_syn_argsep", "core/src/callable.rs: find_syntax, expected_nargs", "core/src/compiler/top.rs: compile_call"]}
{"id": "C63", "title": "Commands and functions of the host get their arguments and the program gets their effects", "statement": "A call of a command or function of the host evaluates its arguments from left to right, hands over their values converted to the declared types, with tags for optional and any-typed arguments, and variables by reference; the program goes on with what the host did to them, with the value of a function, or with the error that the host raised; if an argument fails nothing is called.", "quantifier": "every declaration, every argument list, every host that keeps its contract and every program around the call", "why_tests_cant": "Argument registers, tags and pointers must line up for every combination of declarations and expressions, in every state.", "anchors": ["core/src/compiler/args.rs: compile_args", "core/src/compiler/exprs.rs: compile_expr (calls)", "core/src/compiler/top.rs: compile_call", "core/src/callable.rs: Scope", "core/src/vm/mod.rs: Vm::exec, handle_upcall"]}
{"id": "C64", "title": "Calling a function or subroutine runs its body with its own variables", "statement": "A call of a FUNCTION or SUB evaluates the arguments from left to right, converts them to the types of the parameters and runs the body with them, with a result variable of default value, and with no other variables than the shared ones; the value of the call is what the result variable holds at the end; afterwards the caller's own variables are as before and the shared ones as the body left them; errors in the body are errors of the call. This holds for calls within calls and for recursion.", "quantifier": "every definition, every list of arguments, every state and every depth of calls", "why_tests_cant": "Frames overlap in one register file; recursion of any depth over every program must keep them apart.", "anchors": ["core/src/compiler/top.rs: compile_user_callable, define_params", "core/src/vm/context.rs: do_call, do_return, push_frame"]}
{"id": "C65", "title": "Programs are parsed as they are written", "statement": "Every program that is written by the rules of the language, with statements inside others to any depth, labels, empty lines and one-line forms, is parsed as exactly its statements, with their positions; it has no other reading; nothing else is accepted; and on any text at all the parser ends without a crash, giving the statements before the first error and the error.", "quantifier": "every program and every list of tokens", "why_tests_cant": "Which END, ELSE, NEXT or LOOP belongs to which statement must be right for programs of every depth and size.", "anchors": ["core/src/parser.rs: Parser (parse_one, parse_if, parse_do, parse_for, parse_select, parse_function, parse_sub, parse_data, parse_dim, parse_on, array_assignment_or_builtin_call), StatementIter"]}
{"id": "C66", "title": "GOTO, GOSUB and RETURN go where the labels say", "statement": "GOTO continues at the label of that name, in any case of letters, wherever in the program it is, and changes no variable; GOSUB runs from the label until RETURN and then continues after the GOSUB, with GOSUBs one within another to any depth; errors on the way are errors of the GOSUB; RETURN without a GOSUB is an error.", "quantifier": "every program, label, state and depth of GOSUBs", "why_tests_cant": "Targets are patched after compilation and return addresses share a stack with the frames of calls; tests jump in a few fixed programs only.", "anchors": ["core/src/compiler/top.rs: compile_stmt (Goto, Gosub, Label, Return)", "core/src/compiler/codegen.rs: Codegen (define_label, apply_fixups)", "core/src/vm/context.rs: do_gosub, do_jump, do_return"]}
{"id": "C67", "title": "PRINT writes its arguments as documented", "statement": "PRINT sends to the console one text with its arguments in order: numbers in decimal with a space or a minus sign before them, TRUE and FALSE, texts as they are; after `;` nothing, or a space after numbers and booleans; after `,` as many spaces, at least one, as reach a multiple of 14 characters; and it ends the line unless the arguments end in a separator. CLS clears; SCRCOLS and SCRROWS give the size of the console; errors of the console are errors of the command.", "quantifier": "every list of arguments of any length and types, every state, console and program around it", "why_tests_cant": "The text depends on all the arguments before each one, with no limit on their number or sizes.", "anchors": ["std/src/console/cmds.rs: ClsCommand, PrintCommand, ScrColsFunction, ScrRowsFunction", "core/src/callable.rs: Scope"]}
{"id": "C68", "title": "COLOR and LOCATE accept exactly what is in range", "statement": "COLOR sets the foreground and background that it is given, from 0 to 255, and leaves out those that it is not given; any other number is an error at the argument that has it. LOCATE moves the cursor to the column and row if the console has them, and is otherwise an error at the first argument that is wrong, with a message that tells whether it can be no coordinate at all or is beyond the visible range, and which one that is.", "quantifier": "every integer, console size and combination of arguments", "why_tests_cant": "Arguments that are left out move the others to other registers; ranges meet at several edges.", "anchors": ["std/src/console/cmds.rs: ColorCommand, LocateCommand"]}
{"id": "C69", "title": "A session runs each text as it is written, with the variables of the ones before", "statement": "A text that the machine accepts runs as its statements say, from the contents that the inputs before it left in the variables; at its end the machine waits for another one with the contents that it left. END gives its exit code to the user, and an error is given to the user with its position. A text that is refused changes nothing. A new machine has no variables.", "quantifier": "every text, session of inputs before it, host, contents and fuel", "why_tests_cant": "The text goes through reader, lexer, parser, compiler, linker and machine, which all keep state between inputs.", "anchors": ["std/src/lib.rs: Machine::compile, Machine::exec", "core/src/compiler/mod.rs: Compiler::compile_more", "core/src/vm/mod.rs: Vm::exec"]}
{"id": "C70", "title": "Interruptions, CLEAR and RUN leave the machine ready for the next input", "statement": "A signal that comes when the program yields or while a command runs stops the program; the machine is then at the end of its program, running it again does nothing, and the next input sees the contents of the variables. Requests of the interrupted command are dropped. CLEAR leaves a machine without variables and program, and ends the program that asked for it. RUN clears the machine and runs the text; its exit code is printed and does not end the session, and no error handler is left.", "quantifier": "every program, point of interruption, host and session", "why_tests_cant": "Interruptions come at any instruction, and requests are served between instructions.", "anchors": ["std/src/lib.rs: Machine::exec, should_stop, drain_actions, clear, run", "core/src/vm/mod.rs: interrupt, park_at_eof, clear_runtime_state"]}
{"id": "C71", "title": "INPUT gives a variable the value of what is typed", "statement": "INPUT reads lines with its prompt, to which `;` adds a question mark, until one of them, without the white space at its end, is a value of the type of the variable: TRUE, YES, Y, FALSE, NO or N in any case of letters, an integer of 32 bits, a double, or any text. Before each new attempt it prints what was wrong, and it starts the next line with the one that was wrong. The variable, which may be new, gets the value, and nothing else in the program changes. Errors of the console are errors of the command, except that a line that is not valid text is another attempt.", "quantifier": "every prompt, variable of any type, old or new, sequence of lines of any length, console and program around it", "why_tests_cant": "The loop has no bound on the attempts, and the value goes through a reference into the registers of the program, whose place depends on all of its variables.", "anchors": ["std/src/console/cmds.rs: InputCommand", "std/src/strings.rs: parse_boolean, parse_double, parse_integer", "core/src/callable.rs: Scope::get_mut_ref, RegisterRefMut"]}
{"id": "C72", "title": "DATA, READ and RESTORE work in the order of the source", "statement": "The values that READ finds are those of all the DATA of the program in the order in which they are written, wherever they are: after the READ, in branches that are not taken, in loops, in functions. In a session, the DATA of each input that compiles come after those of the earlier ones. A READ gives its variables, which may be new and may be repeated, the next values one after the other, converted between integers and doubles where that is possible and with the default of the type for an item left out; nothing else in the program changes. It fails with Out of data if none is left, or with a message that names both types if one does not fit, and that one counts as read. RESTORE makes the first value the next one again.", "quantifier": "every program with DATA nested at any depth, session of any length, list of variables of any length, number of values read so far and program around the commands", "why_tests_cant": "Where the data end up depends on the order in which the compiler visits statements nested without bound, and READ stores through several references into registers whose place depends on the whole program.", "anchors": ["core/src/compiler/top.rs: compile_stmt (Data)", "core/src/image.rs: Image::append", "std/src/data.rs: ReadCommand, RestoreCommand"]}
{"id": "C73", "title": "GPIO commands ask the chip for what they say, and the mock tells all that was done", "statement": "GPIO_SETUP, GPIO_CLEAR, GPIO_READ and GPIO_WRITE, as statements and functions of any program, ask the chip once for the operation on the pin that their arguments say, with modes in any case; GPIO_READ leaves the level that the chip finds. A pin outside 0..255 or an unknown mode fails with a message that tells which, before the chip is asked for anything, and errors of the chip are errors of the program. With the mock chip, reads find the levels injected, in order, and the text of the trace determines all the operations that did not fail, their order and the levels read.", "quantifier": "every pin number, mode text, level, chip, program around the commands, and history of a mock of any length", "why_tests_cant": "The commands run inside compiled programs of any shape with arguments computed by any expression; that the text of a trace determines a history is about pairs of histories of any length.", "anchors": ["std/src/gpio/mod.rs: Pin, PinMode, GpioSetupCommand, GpioClearCommand, GpioReadFunction, GpioWriteCommand, GpioMockInjectCommand, GpioMockTraceFunction", "std/src/gpio/fakes.rs: MockPins", "core/src/callable.rs: Scope"]}
{"id": "C74", "title": "Numerical functions compute what they say for every double, and random numbers repeat after a seed", "statement": "In any program, CINT, INT and FIX give the nearest integer, the one below and the part before the point, or fail with an overflow that tells the number if it does not fit in 32 bits; ABS, SGN, ROUND and SQR give the exact or correctly rounded value; SQR, LOG, ACOS and ASIN fail out of their domain and EXP if it overflows; DEG and RAD choose the unit of angles for those that follow and nothing else does; MAX and MIN of finite numbers are one of them, and none is greater or less. After RANDOMIZE with a seed the numbers are the same whatever was drawn before, RND(0) is the last number again, RND of a negative number is as if it were the seed, and all of them are between 0 and 1.", "quantifier": "every double with infinities and NaN, every list of up to 255 of them, every seed, every sequence of draws, every state of the generator, every program around the calls", "why_tests_cant": "There are 2^64 doubles and rounding has ties, overflow and signed zeros; sequences of random numbers are of any length and after any history.", "anchors": ["std/src/numerics.rs: AngleMode, Prng, AbsFunction ... TanFunction, DegCommand, RadCommand, RandomizeCommand, RndFunction", "core/src/callable.rs: Scope"]}
{"id": "C75", "title": "Console specifications give each flag once, with its last value, and unknown flags are reported", "statement": "A console specification driver[:flag,key=value,...] gives its driver; a plain flag is there if and only if it is in the text and was not asked for before; a keyed flag has the value of its last appearance, which may contain equal signs; the end succeeds if and only if every flag given was asked for, and otherwise fails with the ones that were not, all of them, in order. A resolution is valid if and only if it is fs, or WIDTHxHEIGHT with two positive 32-bit numbers and fs after them or not; other texts fail with a message that tells the part that is wrong and why.", "quantifier": "every text, every sequence of questions by drivers, every parser of values", "why_tests_cant": "Texts have any number of flags, repeated, empty and with separators inside; drivers ask for any flags in any order; a digit loop with overflow has unbounded input.", "anchors": ["std/src/console/spec.rs: parse_resolution, ConsoleSpec::init, take_flag, take_keyed_flag_str, take_keyed_flag, finish"]}
{"id": "C76", "title": "String functions of programs work on characters, and their errors name the argument that is wrong", "statement": "In any program, LEFT, MID and RIGHT give those characters of a text, or as many of them as there are, and LEFT(s, n) + MID(s, n) is s again; LEN counts characters; INSTR gives the position of the first occurrence from a start, or 0; LTRIM, RTRIM and TRIM take the white space of one end or both and nothing else, and take nothing the second time; SPACE gives that number of spaces; ASC and CHR undo each other; STR shows a value as PRINT does and VAL reads the longest number after the white space, so that VAL(STR(i)) reads all the digits of i. Negative counts, starts that are not positive, codes that are no characters and texts that are not one character fail with their own message. None changes anything else.", "quantifier": "every text of Unicode characters, every 32-bit integer, every value of every type, every program around the calls", "why_tests_cant": "Texts have any length and characters of one to four bytes, and counts go beyond either end.", "anchors": ["std/src/strings.rs: AscFunction ... ValFunction, add_all", "core/src/callable.rs: Scope"]}
{"id": "C77", "title": "Graphics commands ask the console for what they say, with coordinates that fit, or fail and draw nothing", "statement": "In any program, GFX_PIXEL, GFX_FILL, GFX_LINE, GFX_RECT, GFX_RECTF, GFX_TRI, GFX_TRIF, GFX_POLY, GFX_POLYF, GFX_CIRCLE and GFX_CIRCLEF ask the console once for that shape, with the points that their arguments say in that order. If a coordinate does not fit in 16 bits with a sign or a radius in 16 bits, they fail with a message that tells the first one that does not, and nothing is drawn. An odd number of coordinates of a polygon fails too. GFX_SYNC asks for one update, or shows or hides the cursor and then changes the mode. GFX_WIDTH, GFX_HEIGHT and GFX_PEEK give what the console says, with -1 for no pixel, and change nothing. Errors of the console are errors of the program.", "quantifier": "every console, every 32-bit integer for each argument, polygons of up to 127 points given one by one, every program around the commands", "why_tests_cant": "Arguments are computed by programs of any shape, polygons have many lengths, and one coordinate that is not checked would wrap around into a point somewhere else.", "anchors": ["std/src/gfx/mod.rs: parse_coordinate, parse_radius, GfxCircleCommand ... GfxWidthFunction", "core/src/callable.rs: Scope"]}
{"id": "C78", "title": "The property line of a script is found in its second line, and every other script has none", "statement": "If the first line of a script starts with #! and its second one is a comment, with an apostrophe or REM in any case, that goes on with endbasic cli: console= and a text that is not empty, that text is the console specification of the script. Such a comment with anything else after endbasic cli: is an error that tells the line, or that the specification is missing. Every other script has no specification, except that the program panics, and only then, if the second line has a character across its fourth and fifth bytes and does not start with an apostrophe and a space. Lines end with LF, CRLF or the end of the file.", "quantifier": "every script of any length with any bytes, with any terminators of lines", "why_tests_cant": "Scripts are texts of any length; a line that is cut at a fixed number of bytes can have a character of several bytes there.", "anchors": ["cli/src/propline.rs: strip_newline, parse_propline, extract_propline"]}
