(** Model of the commands of the stored program, /repo/std/src/program.rs, of the question about
    unsaved changes and of the loop that reads commands, /repo/repl/src/lib.rs.

    Simplifications, all over this file:
    - The lines that the user will type are a list; a line may also be an error of the console.  At
      the end of the list comes the end of the input.  How a line is typed is C43 to C45.
    - The console's output is the list of what was written on it, which always succeeds.
    - The actions for the machine are the list of all those requested; what the machine does with
      them (/repo/std/src/lib.rs:152-165) is left out.
    - LIST and DISASM, which only write, are left out.
    - [None] is a panic. *)
From Coq Require Import String.
From Verif Require Import Base Text_Model Storage_Model Readline_Model Editor_Model.
Local Open Scope string_scope.
Local Open Scope N_scope.
Local Open Scope list_scope.

(** The kinds of [std::io::Error] that the loop tells apart when a line is read. *)
Inductive line_error := Interrupted | UnexpectedEof | OtherLineError.

(** /repo/std/src/lib.rs:87-93. *)
Inductive action := AClear | ARun (program : ustr).

(** What the commands have access to: the stored program, the storage, the console and the queue of
    actions. *)
Record host : Type := mkHost {
  o_program : editor;
  o_storage : storage;
  o_interactive : bool;
  o_input : list (res line_error ustr);
  o_output : list ustr;
  o_actions : list action
}.
Definition with_program (p : editor) (o : host) : host :=
  mkHost p (o_storage o) (o_interactive o) (o_input o) (o_output o) (o_actions o).
Definition with_storage (st : storage) (o : host) : host :=
  mkHost (o_program o) st (o_interactive o) (o_input o) (o_output o) (o_actions o).
Definition with_input (i : list (res line_error ustr)) (o : host) : host :=
  mkHost (o_program o) (o_storage o) (o_interactive o) i (o_output o) (o_actions o).
Definition say (s : ustr) (o : host) : host :=
  mkHost (o_program o) (o_storage o) (o_interactive o) (o_input o) (o_output o ++ [s]) (o_actions o).
Definition push (a : action) (o : host) : host :=
  mkHost (o_program o) (o_storage o) (o_interactive o) (o_input o) (o_output o) (o_actions o ++ [a]).

(** /repo/std/src/console/readline.rs:484-495: only an interactive console shows the prompt. *)
Definition read_line (prompt : ustr) (o : host) : host * res line_error ustr :=
  let o := if o_interactive o then say prompt o else o in
  match o_input o with
  | [] => (o, Err UnexpectedEof)
  | l :: rest => (with_input rest o, l)
  end.

(** The errors of a command: of the console, of the storage, and those that program.rs makes. *)
Inductive call_error := ELine (e : line_error) | EIo (e : io_error) | EInvalidData | EPrecondition (msg : ustr).

Definition default_extension : ustr := u "bas".

(** [String::from_utf8]: the text that the bytes encode, if there is one. *)
Fixpoint bytes_eqb (a b : list N) : bool :=
  match a, b with
  | [], [] => true
  | x :: a, y :: b => (x =? y) && bytes_eqb a b
  | _, _ => false
  end.
Definition from_utf8 (b : list N) : option ustr :=
  let t := chars b in if forallb is_char t && bytes_eqb (collect t) b then Some t else None.

Section Case.
(** [char::to_uppercase], whose table is Unicode's. *)
Variable uc : N -> list N.

(** /repo/std/src/strings.rs:39-48. *)
Definition parse_boolean (s : ustr) : option bool :=
  let raw := flat_map uc s in
  if ustr_eqb raw (u "TRUE") || ustr_eqb raw (u "YES") || ustr_eqb raw (u "Y") then Some true
  else if ustr_eqb raw (u "FALSE") || ustr_eqb raw (u "NO") || ustr_eqb raw (u "N") then Some false
  else None.

(** program.rs:116-130. *)
Definition continue_if_modified (o : host) : host * res line_error bool :=
  if negb (e_dirty (o_program o)) then (o, Ok true)
  else
    let o := say (match e_name (o_program o) with
                  | Some name => u "Current program " ++ name ++ u " has unsaved changes!"
                  | None => u "Current program has unsaved changes and has never been saved!"
                  end) o in
    let '(o, answer) := read_line (u "Discard and continue (y/N)? ") o in
    match answer with
    | Ok a => (o, Ok (match parse_boolean a with Some b => b | None => false end))
    | Err e => (o, Err e)
    end.

Definition result : Type := option (host * res call_error unit).

(** program.rs:438-450. *)
Definition new_command (o : host) : result :=
  let '(o, go) := continue_if_modified o in
  match go with
  | Err e => Some (o, Err (ELine e))
  | Ok true => Some (push AClear (with_program (load None [] (o_program o)) o), Ok tt)
  | Ok false => Some (say (u "NEW aborted; use SAVE to save your current changes.") o, Ok tt)
  end.

(** program.rs:361-391. *)
Definition load_command (pathname : ustr) (o : host) : result :=
  let '(o, go) := continue_if_modified o in
  match go with
  | Err e => Some (o, Err (ELine e))
  | Ok false => Some (say (u "LOAD aborted; use SAVE to save your current changes.") o, Ok tt)
  | Ok true =>
      match make_canonical_with_extension uc (o_storage o) pathname default_extension with
      | Err e => Some (o, Err (EIo e))
      | Ok full_name =>
          match get uc full_name (o_storage o) with
          | None => None
          | Some (Err e) => Some (o, Err (EIo e))
          | Some (Ok content) =>
              match from_utf8 content with
              | None => Some (o, Err EInvalidData)
              | Some content =>
                  Some (push AClear (with_program (load (Some full_name) content (o_program o)) o), Ok tt)
              end
          end
      end
  end.

(** program.rs:489-495. *)
Definition run_command (o : host) : result := Some (push (ARun (text (o_program o))) o, Ok tt).

(** program.rs:552-578. *)
Definition save_command (arg : option ustr) (o : host) : result :=
  match (match arg with Some name => Some name | None => e_name (o_program o) end) with
  | None => Some (o, Err (EPrecondition (u "Unnamed program; please provide a filename")))
  | Some name =>
      match make_canonical_with_extension uc (o_storage o) name default_extension with
      | Err e => Some (o, Err (EIo e))
      | Ok full_name =>
          match put uc full_name (collect (text (o_program o))) (o_storage o) with
          | None => None
          | Some (Err e) => Some (o, Err (EIo e))
          | Some (Ok st) =>
              let o := with_program (set_name full_name (o_program o)) (with_storage st o) in
              Some (say (u "Saved as " ++ full_name) o, Ok tt)
          end
      end
  end.

(** program.rs:248-255, with the editor of C41 on a console of [w] by [h].  The keys are those up to
    an Escape; what the editor draws is left out of the output. *)
Definition edit_program (w h : nat) (keys : list key) (p : editor) : option editor :=
  match edit w h true (keys ++ [KEscape]) p with
  | Some (Left p' _, _) => Some p'
  | Some (Waiting p', _) => Some p'
  | None => None
  end.
Definition edit_command (w h : nat) (keys : list key) (o : host) : result :=
  match edit_program w h keys (o_program o) with
  | Some p => Some (with_program p o, Ok tt)
  | None => None
  end.

(** What the machine makes of a line: it compiles and executes it, which ends, calls END with a code,
    is interrupted, or fails with a message (/repo/std/src/lib.rs:189-261). *)
Inductive outcome := ODone | OExit (code : Z) | OBreak | OError (msg : ustr).

Inductive stop := Stopped (code : Z) | Failed (e : line_error) | Running.

(** repl/src/lib.rs:212-281.  [machine] is the machine, and [n] the lines after which we stop
    looking, with [Running]. *)
Section Machine.
Variable machine : ustr -> host -> option (host * outcome).
Fixpoint run_repl_loop (n : nat) (o : host) : option (host * stop) :=
  match n with
  | O => Some (o, Running)
  | S n =>
      let o := if o_interactive o then say (u "Ready") o else o in
      let '(o, line) := read_line [] o in
      match line with
      | Ok line =>
          match machine line o with
          | None => None
          | Some (o, ODone) => run_repl_loop n o
          | Some (o, OExit code) =>
              let '(o, go) := continue_if_modified o in
              match go with
              | Err e => Some (o, Failed e)
              | Ok true => Some (o, Stopped code)
              | Ok false => run_repl_loop n (say (u "Exit aborted; resuming REPL loop.") o)
              end
          | Some (o, OBreak) => run_repl_loop n (say (u "**** BREAK ****") o)
          | Some (o, OError msg) => run_repl_loop n (say (u "ERROR: " ++ msg) o)
          end
      | Err Interrupted => run_repl_loop n (say (u "**** BREAK ****") o)
      | Err UnexpectedEof => Some (say (u "End of input by CTRL-D") o, Stopped 0)
      | Err OtherLineError => Some (o, Stopped 1)
      end
  end.
End Machine.
End Case.
