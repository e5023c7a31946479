(** The property line of scripts: cli/src/propline.rs.  Files and lines are bytes; those that are not
    UTF-8, and errors in reading, are left out. *)
From Coq Require Import String.
From Verif Require Import Base Text_Model.
Local Open Scope string_scope.
Local Open Scope list_scope.
Local Open Scope nat_scope.

(** [str::strip_prefix]. *)
Definition strip_prefix (p b : list N) : option (list N) := if starts_with b p then Some (skipn (length p) b) else None.
(** [BufRead::read_line]: the line with its terminator, and what is left. *)
Fixpoint read_line (b : list N) : list N * list N :=
  match b with
  | [] => ([], [])
  | x :: r => if (x =? 10)%N then ([x], r) else let (l, rest) := read_line r in (x :: l, rest)
  end.
(** [String::ends_with] of a character of one byte. *)
Definition ends_with (c : N) (b : list N) : bool := match rev b with x :: _ => (x =? c)%N | [] => false end.
(** [String::pop] of a character of one byte. *)
Definition pop (b : list N) : list N := removelast b.
(** propline.rs 31-38. *)
Definition strip_newline (s : list N) : list N :=
  if ends_with 10 s then let s := pop s in if ends_with 13 s then pop s else s else s.
(** propline.rs 43-78; [None] is the panic of slicing inside a character at 4, the ends being always
    fine. *)
Definition parse_propline (line : list N) : option (res (list N) (option (list N))) :=
  let without_comment :=
    match strip_prefix (u "' ") line with
    | Some line => Some (Some line)
    | None =>
        if length line <=? 4 then Some None
        else if is_char_boundary line 4 then
          Some (if ustr_eqb (ascii_lower (firstn 4 line)) (u "rem ") then Some (skipn 4 line) else None)
        else None
    end in
  match without_comment with
  | None => None
  | Some None => Some (Ok None)
  | Some (Some payload) =>
      match strip_prefix (u "endbasic cli: ") payload with
      | None => Some (Ok None)
      | Some payload =>
          match strip_prefix (u "console=") payload with
          | None => Some (Err (u "Invalid EndBASIC propline: " ++ line))
          | Some [] => Some (Err (u "Invalid EndBASIC propline: missing console specification"))
          | Some console_spec => Some (Ok (Some console_spec))
          end
      end
  end.
(** propline.rs 81-100. *)
Definition extract_propline (input : list N) : option (res (list N) (option (list N))) :=
  let (line1, input) := read_line input in
  if length line1 =? 0 then Some (Ok None)
  else if negb (starts_with (strip_newline line1) (u "#!")) then Some (Ok None)
  else
    let (line2, _) := read_line input in
    if length line2 =? 0 then Some (Ok None) else parse_propline (strip_newline line2).
