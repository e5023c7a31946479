# Design

Formal model of endbasic (source in /repo, read as text) in Rocq (Coq 8.16.1),
under `rocq/theories`, logical name `Verif`.

## Layout

For each area `X` of the code there are up to four files:

* `X_Model.v`   – executable Gallina definitions, each citing the Rust file and lines.
* `X_Spec.v`    – small specification written independently of the model (when the
                  statement needs more than ordinary mathematics).
* `X_Proofs.v`  – lemmas.
* `X_Props.v`   – property theorems only: statement, `exact lemma`, `Print Assumptions`,
                  and an `Example` showing a concrete case that meets the hypotheses.

## Modelling conventions

* Rust `String`/`char` are lists of Unicode scalar values (`list N`); where the code uses
  byte lengths the UTF-8 length function is modelled explicitly.
* Fixed-width integers are `Z`/`N` with explicit range checks or wraps at the points where
  the code checks or wraps.  A Rust panic is an explicit error value.
* `f64` is a 64-bit pattern (`N`) decoded to `Coq.Floats.SpecFloat.spec_float`; IEEE
  operations are those of `SpecFloat` (binary64); no axioms are involved.  Operations whose
  result Rust/IEEE do not fix exactly (`powf`, `sin`, ...) are oracles passed as parameters.
* `HashMap`s are association lists or functions with the iteration order left arbitrary
  where the code depends on it.
* `&mut self` methods return the new state; `async` and I/O traits are state machines with
  the device as explicit state.
* Loops are structural recursion where possible; otherwise fuel with an explicit
  out-of-fuel value that theorems exclude (proved unreachable with a stated amount).

## Plan per property

| Id | Model | Proof method |
|----|-------|--------------|
| C01 | `instr` type with all opcodes, `encode`/`decode` on words | round trip by field arithmetic, injectivity corollary |
| C02 | registers, tagged references | round trip, range characterisation |
| C03 | packed types, tags, exit codes | round trip, rejection iff |
| C04 | `flat_index` loop | refinement to mixed-radix number, bijection |
| C05 | heap + array load/store | read-over-write laws |
| C06 | heap push/clear | invariant over operation lists |
| C07 | `DatumPtr` codec | round trip, disjointness |
| C08 | checked integer helpers | exact mathematical spec with iff error |
| C09 | `round` + range on spec_float | spec through rational value of a double |
| C10 | VM `exec` loop; all of statement compilation | well-founded measure, explicit bound; invariant of the compiler (`Marks_Proofs.v`): every backward jump emitted, patched or fixed up touches a marked statement start |
| C11 | call/gosub/return | functional spec + call stack invariant |
| C12 | `handle_exception` | functional spec, first statement boundary after pc |
| C13,C14 | compiler state machine and image deltas | atomicity, prefix invariants over histories |
| C15 | `HashMapWithIds` | invariant over operation lists, refinement to key list |
| C16,C17 | symbol tables, temp scopes | invariants over definition lists |
| C18,C19,C20 | expression compiler on AST, VM on emitted code | simulation against a reference evaluator, induction on expressions |
| C21,C22,C23 | statement compiler | simulation against big-step semantics |
| C24 | character reader | spec by counting |
| C25,C26 | lexer | value of digit strings, quote/lex round trip |
| C27 | shunting-yard expression parser | print/parse round trip by induction |
| C28 | READ/RESTORE state machine | refinement to a list cursor |
| C29 | bounds functions | equivalence with subscript acceptance |
| C30,C31,C32 | string functions over code point lists | functional specs |
| C33,C34,C35,C36 | storage | decision of syntax, invariants and refinement over histories |
| C37,C38,C39,C40 | line buffer and line reader with a console row | refinement to list-with-cursor editor; screen relation invariant |
| C41,C42 | full-screen editor with its screen | refinement to a text with a cursor; the screen shows a window of it, by invariant over keys |
| C43,C44 | drawing algorithms over abstract raster | loop invariants; reachability |
| C45,C46 | buffered LCD | device/frame buffer refinement invariant |
| C47 | colour table | finite sweep lifted with forallb |
| C48,C49 | pager and formatter | invariants by induction |
| C50 | program commands and REPL loop | case analysis per command, induction on histories and on the loop |
| C51,C52,C53 | VAL, TRIM, STR over code point lists | longest-prefix spec, decomposition, inverse functions |
| C54 | whole compiler and machine | witnesses of panics; absence in the fragment of C20-C23 |
| C55 | lexer | equivalence with a declarative grammar of tokens |
| C56,C57,C58 | drawing algorithms | loop invariants to a geometric set of pixels |
| C62 | argument compiler, `compile_args` and `define_new_args` | equivalence with a declarative matching of arguments (`Args_Spec`), by induction on declarations and expressions |
| C63 | calls of the host | simulation with a relation of what the host may do (`host_obeys` in `Call_Spec`) |
| C64 | calls of the program | induction on the depth of calls over the simulation of statements, frames kept apart (`User_Proofs`) |
| C59,C60,C61 | graphical console over the buffered LCD | refinement to a screen of cells, over histories of any length |
| C65 | statement parser | induction over a grammar of statements (`Stmts_Spec`) for what is accepted, and over the parser for the converse and for termination |
| C66 | GOTO, GOSUB, RETURN | simulation of statements, with jumps to labels of the blocks around them; induction on the depth of GOSUBs (`Stmt_Proofs`) |
| C67 | PRINT, CLS, SCRCOLS, SCRROWS | the loop over the arguments spells what `Cmds_Spec` says, by induction on them; the console is a host that meets `host_obeys`, so the theorems of C20 to C23 apply |
| C68 | COLOR, LOCATE | case analysis over what is given and in range; as statements of a program through `host_obeys` |
| C69 | texts of a session | C55, C65 and the simulation of C20 to C23 composed, from the text to what `Machine::exec` gives (`Machine_Proofs`) |
| C70 | interruptions, CLEAR, RUN | induction over the run up to the point of interruption (`calmly`), for any host |
| C71 | INPUT | the loop over the lines is what `asks` of `Input_Spec` says, by induction on both; a command that stores through a reference keeps the contract of hosts (`leaves_variable`), so the theorems of C20 to C23 and C63 apply |
| C72 | DATA, READ and RESTORE | `adds` of `Read_Order`: what compiling a statement adds to the data are its items, by induction on statements; the loop of READ serves `read_into`, by induction on the variables with `leaves_variable` for each; then as for C71 |
| C73 | GPIO | a host made of callables that are given values only keeps the contract (`lib_obeys`, once for all of them); those of `gpio_provided` serve `gpio_does` for any chip; the trace of the mock decodes to its history by induction on the history, and words without spaces joined by spaces are told apart |
| C74 | numerics | the 22 functions and commands of `numerics_provided` serve `numerics_does`, whose integers, maxima and signs are those of exact rationals; doubles as integer keys in order, and what dividing two finite doubles gives before and after rounding, for `RND` in [0, 1] |
| C75 | console specifications | what the loop over the flags keeps, by induction from the last flag; an invariant over the questions asked; the texts of numbers through the digits loop of the lexer |
| C76 | strings as callables | the 15 functions of `strings_provided` serve `gives`, over code points, by the theorems of C30-C32 and C51-C53 and the uniqueness of what they specify; consequences by inversion of `gives` |
| C77 | graphics as callables | the 15 commands and functions of `gfx_provided` serve `gfx_does`, over any console, by induction on the coordinates; `only_drawn` and what is unchanged by inversion of it |
| C78 | property line of scripts | `extract_propline` on bytes against `told`, both ways, by induction on the lines; the panic is characterised exactly |

## Trusted base

* Coq 8.16.1's kernel and its virtual machine (`vm_compute`); `vcheck` also runs `coqchk`, which
  does not use the virtual machine.
* Axioms: none.  `Print Assumptions` follows every theorem of every `X_Props.v` and answers
  "Closed under the global context" for all of them.  `coqchk` also lists seven constants of the
  standard library's `Coq.ssr.ssrunder` (`Under_rel`, `Over_rel`, ...), which are loaded through
  the standard library and which no theorem depends on.
* The models' faithfulness to the Rust source: they were written by reading /repo; nothing is
  extracted from or run against the code.  Each definition cites the lines it stands for, and says
  where it simplifies them.
* Facts about Unicode enter as hypotheses of the theorems that need them (records of facts about
  the tables of `char::to_uppercase`, `to_lowercase`, `is_alphanumeric`, `is_numeric`), never as
  axioms.  `f64::powf` is a parameter; so is the behaviour of built-in functions ("upcalls").

## What is modelled, by area

| Area | Code | Simplifications |
|------|------|-----------------|
| Bytecode | core/src/bytecode.rs | none |
| Mem | core/src/mem.rs | vectors are lists; capacity limits as in the code |
| Num | core/src/num.rs | `f64` through `SpecFloat`; NaN payloads canonical |
| Vm | core/src/vm/{context,mod}.rs | upcalls are a parameter; asynchronous upcalls stop the machine and resume it; debug assertions left out |
| Ids, Syms, Ast | core/src/compiler/{ids,syms}.rs, core/src/ast.rs | positions kept; metadata of callables reduced to what the compiler reads |
| Codegen, Exprs, Top | core/src/compiler/{codegen,args,exprs,top,mod}.rs, core/src/image.rs | code is kept decoded until an image is built; fixups are drained in an unspecified order, as with Rust's hash map; recursion on expressions instead of the loop (equivalence: `compile_expr_peeled`); what a failing statement leaves in the discarded copy of the state is left out; debug assertions left out |
| Incr, Steady, Defs, Eval, Args, Layout, Run, Call, Exec, Flow, Select, Simple, Stmt, Range, Program, User, Jump | proofs about the compiler and the machine together | reference semantics are in `Eval_Spec`, `Call_Spec`, `Exec_Spec` and `User_Spec` |
| Host | core/src/callable.rs (`Scope`) | what a callable of the host reads from and writes to the registers |
| Lex | core/src/reader.rs, core/src/lexer.rs | I/O errors in the reader only |
| Parse | core/src/parser.rs 82-260, 730-1019 (expressions) | fuel, shown to be enough |
| Stmts, StmtsEnd, StmtsConv | core/src/parser.rs, the rest (statements) | fuel, shown to be enough; the recovery after an error is left out, as the compiler stops there; the code may report "IF without END IF" or "SELECT without END SELECT" instead of the error when the recovery meets another END |
| Data, Strings, Bounds, Colors | std/src/data.rs, strings.rs, arrays.rs, gfx color tables | allocation failure of results left out |
| Text, Linebuf, Format | UTF-8, std/src/console/{linebuffer,format,pager}.rs | help text markup left out |
| Storage | std/src/storage/{mod,mem}.rs, repl/src/demos.rs | errors by kind; dates, quotas and paths of the host left out |
| Readline | std/src/console/readline.rs | console I/O errors left out; 16-bit arithmetic wraps as in release builds |
| Editor | repl/src/editor.rs | the console is the list of operations asked of it (given meaning in `Editor_Spec` as a grid of cells); lines are lists of characters (C40); I/O errors left out |
| Repl | std/src/program.rs (not LIST and DISASM), `parse_boolean` of std/src/strings.rs, `run_repl_loop` of repl/src/lib.rs | typed lines are a list with errors in it; the output is the list of what was printed; the machine that runs a line is a parameter; `String::from_utf8` is the inverse of the encoding |
| Input | std/src/console/cmds.rs (INPUT), std/src/strings.rs (parsers), core/src/callable.rs (references) | what reads a line, Unicode's upper case and Rust's parser of doubles are parameters; the loop has as much fuel as one likes, and not ending is a crash |
| Cmds | std/src/console/cmds.rs (not INPUT and INKEY) | the console is a function on the world that performs operations and may fail; how Rust shows an `f64` is a parameter; a subtraction below zero is a crash |
| Lib | core/src/callable.rs (`Scope` of callables that are given values) | a callable is a function of its registers, texts, positions and the world; writing the result is done for it (`leave_value`) |
| Gpio | std/src/gpio/{mod,fakes}.rs | the chip is a function on the world that performs operations and may fail; the mock is `mock_perform` |
| Numerics | std/src/numerics.rs | the functions of libm (`acos`, `asin`, `atan`, `cos`, `exp`, `ln`, `sin`, `tan`, `powi`), how doubles are shown and the generator of the `rand` crate are parameters (`libm`, `show_double`, `generator`); all NaN are one |
| Conspec | std/src/console/spec.rs | hash sets and maps are lists without repetitions; the panic of `init` is `None`; the integer parsers of the standard library by their documented behaviour |
| Textfns | std/src/strings.rs (callables) | `to_lowercase`, `to_uppercase`, how doubles are shown and the value of a literal of `f64::from_str` are parameters; the functions on bytes are those of Strings |
| Gfxcmds | std/src/gfx/mod.rs | the operations of the console, its size and its pixels are parameters; polygons in arrays (80, 102-159) are not modelled |
| Propline | cli/src/propline.rs | errors in reading files and texts that are not UTF-8 are left out |
| Machine | std/src/lib.rs (`Machine`) | what is outside of the machine (signals, actions asked for by commands, yielding, resetting and printing) is a record of functions on the world (`outside`); `ERRMSG` is left to the host; loops have fuel |
| Draw | std/src/console/drawing.rs | wraps as in release builds |
| Lcd | std/src/gfx/lcd/{mod,buffered/mod}.rs | no I/O errors; the device is an array of pixels |
| Gfx | std/src/console/graphics.rs | over the buffered LCD; keys, sound and I/O errors left out |

Not modelled: the SDL, web, terminal (crossterm) and ST7735S back ends; the GPIO chip of the Raspberry Pi; the cloud client and
its drive; the directory drive; the command line (except property lines); HELP's topics and markup; other
commands that only glue modelled parts together; time, SLEEP and sound; libm itself and
the generator of random numbers.

## Findings

Statements that a user would expect, and that are false of the code as modelled.  Each has a
theorem with a witness.

| Theorem | What happens |
|---------|--------------|
| C10_jump_handlers_refuted | `@h: ON ERROR GOTO @h : RETURN` keeps the machine busy for ever without yielding to the host. |
| C12_resume_next_at_end_refuted | `ON ERROR RESUME NEXT` with an error in the last statement resumes past the end of the code, and the machine panics. |
| C18_changes_no_variable_refuted | A call without arguments uses the destination register as the callee's frame and destroys later variables. |
| C18_loop_variables_refuted | Temporaries of a loop's guard overlap variables first assigned inside the loop. |
| C18_double_function_default_refuted | A DOUBLE function that assigns no result returns the bits of a constant's index. |
| C20_calls_refuted | `g = 1 + f`, where `f` reads `g`, sees the half-computed value. |
| C21_skipped_branch_refuted | A text variable that only a skipped branch assigns holds the program's first constant. |
| C27_only_writings_refuted | `1 NOT 2` drops the 1, `(x)(3)` is a call, `f(())` is `f()`. |
| C28_errors | A READ of the wrong type consumes the value. |
| C29_dimension_zero_refuted | `LBOUND(a, 0)` answers 0 and `UBOUND(a, 0)` panics. |
| C30_mid_documented_refuted | MID is documented as one-based and is zero-based. |
| C33_one_canonical_form_refuted | `FOO` and `/FOO` are one file with two canonical paths. |
| C37_prompt_panic_refuted | A prompt with wide characters that does not fit the console panics. |
| C38_no_room_refuted | Without room for text the cursor goes over the prompt. |
| C39_interrupted_refuted | A line given up with Ctrl+C leaves an entry in the history. |
| C41_wide_space_refuted | A new line after an indentation with a space beyond ASCII leaves the cursor past the end of the line. |
| C41_status_line_refuted | With a name beyond ASCII the status line does not reach the last column. |
| C41_tabulator_refuted | On a graphical console without spare pixels, a tabulator whose spaces end exactly at the last column makes the console panic. |
| C50_end_of_input_refuted | The end of the input (Ctrl-D) at the prompt leaves the REPL with unsaved changes and without a question. |
| C50_interrupted_question_refuted | Ctrl-C at the question before leaving is not taken as a no: the REPL fails with an error and the changes are gone. |
| C42_unmodified_refuted | Looking at an empty program in the editor gives it an empty line, without marking it as modified. |
| C42_save_load_refuted | A line that ends in a carriage return loses it each time that the text is saved and loaded. |
| C44_same_look_refuted | Filling with a color that looks like the one to replace (0 and 16) does not end. |
| C45_sync_on_refuted | Turning synchronization on in the LCD does not present what was drawn. |
| C46_beyond_refuted | A filled rectangle beyond the right or the bottom is drawn on the last column or row. |
| C47_number_round_trip_refuted | Color 16 is looked up as 0. |
| C49_narrow_refuted | An indentation wider than the console underflows. |
| C54_running_refuted | A three line program makes the machine panic (a number taken for a text). |
| C54_compiling_refuted | Calling a declared but undefined function, repeating a parameter, and leaving out a subscript make the compiler panic. |
| C56_far_refuted | Circles that do not fit in 16 bits wrap around. |
| C57_far_refuted, C57_far_corner_refuted | Polygons with far coordinates overflow; a rectangle of two corners leaves out the second. |
| C59_full_row_refuted | Text that fills the last row of a display without spare pixels panics with the cursor visible. |
| C63_result_register_refuted | The value of a host function without arguments may go to a register that the machine has no room for: the host crashes on storing it. |
| C65_lines_independent_refuted | A one-line IF that ends in ELSE takes the end of its line: the statement of the next line is refused. |
| C65_command_comparison_refuted | `PRINT (1) = 2` is an assignment to an element of an array. |
| C67_fields_refuted | PRINT counts bytes: after `é` the next field starts one character early. |
| C67_lines_refuted | Fields are counted from the start of the command and not of the line. |
| C70_after_error_refuted | An error within a SUB leaves the machine in its frame: the next input reads other registers for the variables of the program (`PRINT x` prints 3 where it printed 4). |
| C70_clear_case | `CLEAR: PRINT 1` prints nothing: whatever follows CLEAR in its line is not run (see C70_clear_ends). |
| C68_no_columns_refuted | LOCATE on a console without columns crashes. |
| C62_required_value_refuted | An any-typed parameter declared as required accepts to be left out (`OUT_SEP_END 3,`). |
| C73_failed_read_refuted | A GPIO_READ of another pin than the one injected in the mock fails and takes the level away, and the read of the right pin then fails too. |
| C74_maximum_refuted | `MAX` of minus infinity, or of NaN, is the least finite double, which is none of its arguments. |
| C75_empty_refuted | An empty console specification, as in `--console=`, panics (std/src/console/spec.rs 125, reached from cli/src/console.rs 103). |
| C78_any_script_refuted | A script whose second line has a character of several bytes across its fourth and fifth bytes panics when it is run (cli/src/propline.rs 50), if its first line starts with `#!`. |
| C60_ghost_refuted, C60_drawn_under_refuted, C60_previous_char_refuted | The alternate screen saves a visible cursor as part of the picture; drawings in the cursor's cell are lost; clearing the previous character in the first column panics. |

## Partial claims

* C18: expressions without calls and array elements.  The theorem speaks of code placed in memory
  (`code_in`).
* C20-C23: statements without ON ERROR and without jumps into the bodies of statements from
  outside; GOTO, GOSUB and RETURN are given meaning by `exec_jumps` and `gosubs` in `Exec_Spec.v`,
  calls of functions and subroutines of the program by `program_calls` in `User_Spec.v`.  The theorems speak of code at any point of any input of a session, and of a machine and a
  host together (`runs` in `Call_Spec.v`).  What functions and commands of the host do is a
  parameter, `calls`; `host_obeys` is the contract that connects the host with it.  `Host_Case.v`
  has a host that meets the contract.  A variable that a statement first mentions by giving it to a
  command (`INPUT x`) has no value in the semantics until it is assigned.
* C54: refuted in general.

## Tests against wrong programs

`seeded/LOG.jsonl` has one line per edit of a model definition in a scratch copy, with the theorems
that stopped holding.
