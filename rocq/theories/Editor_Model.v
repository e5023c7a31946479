(** Model of the full-screen editor: /repo/repl/src/editor.rs.

    Simplifications, all over this file:
    - A [LineBuffer] is the list of its characters; C40 proves that the type behaves like one.
    - The console is the list of operations asked of it, in order.  I/O errors of the console are
      left out, so an operation always succeeds.
    - [usize] has no upper bound.  [None] is a panic: an index out of range, or a subtraction below
      zero, which panics in debug builds and wraps around in release builds.  C41_never_panics shows
      that none happens if the console has at least one column and two rows. *)
From Coq Require Import String.
From Verif Require Import Base Strings_Model Readline_Model Gfx_Model.
Local Open Scope string_scope.
Local Open Scope nat_scope.
Local Open Scope list_scope.

(** The operations of /repo/std/src/console/mod.rs [Console] that the editor uses. *)
Inductive eop : Type :=
| EHide
| EShow
| EColor (fg bg : option N)
| EClear (how : clear_type)
| ELocate (x y : nat)
| EPrint (s : ustr)
| EWrite (s : ustr)
| ESyncNow
| ESync (enabled : bool)
| EEnterAlt
| ELeaveAlt.

(** editor.rs:27-31, with the numbers of /repo/std/src/console/colors.rs [AnsiColor]. *)
Definition text_color : eop := EColor (Some 7%N) None.
Definition status_color : eop := EColor (Some 15%N) (Some 4%N).

(** editor.rs:34. *)
Definition indent_width : nat := 4.

(** editor.rs:37. *)
Definition keys_summary : ustr := u " ESC Exit ".

(** editor.rs:40-49. *)
Fixpoint copy_indent (line : ustr) : ustr :=
  match line with
  | [] => []
  | c :: r => if is_whitespace c then c :: copy_indent r else []
  end.

(** editor.rs:53-63. *)
Fixpoint find_indent_end (line : ustr) : nat :=
  match line with
  | [] => 0
  | c :: r => if (c =? 32)%N then S (find_indent_end r) else 0
  end.

(** editor.rs:98-117, with the two fields of each [FilePos] (66-73). *)
Record editor : Type := mkEditor {
  e_name : option ustr;
  e_content : list ustr;
  e_dirty : bool;
  e_vline : nat;
  e_vcol : nat;
  e_line : nat;
  e_col : nat;
  e_insert_col : nat
}.

(** editor.rs:119-131. *)
Definition editor_default : editor := mkEditor None [] false 0 0 0 0 0.

(** Assignments to fields. *)
Definition with_text (e : editor) (content : list ustr) (dirty : bool) : editor :=
  mkEditor (e_name e) content dirty (e_vline e) (e_vcol e) (e_line e) (e_col e) (e_insert_col e).
Definition with_view (e : editor) (vline vcol : nat) : editor :=
  mkEditor (e_name e) (e_content e) (e_dirty e) vline vcol (e_line e) (e_col e) (e_insert_col e).
Definition with_pos (e : editor) (line col insert_col : nat) : editor :=
  mkEditor (e_name e) (e_content e) (e_dirty e) (e_vline e) (e_vcol e) line col insert_col.

(** [self.content[i]]. *)
Definition line_at (e : editor) (i : nat) : option ustr := nth_error (e_content e) i.

(** [Vec::remove] and [Vec::insert]. *)
Definition remove_at {A} (i : nat) (l : list A) : list A := firstn i l ++ skipn (S i) l.
Definition insert_at {A} (i : nat) (x : A) (l : list A) : list A := firstn i l ++ x :: skipn i l.

(** editor.rs:79-93. *)
Inductive refresh : Type := RNone | RCurrentLine | RFull.
Definition upgrade (r new : refresh) : refresh :=
  match r, new with
  | RFull, _ | _, RFull => RFull
  | RCurrentLine, _ | _, RCurrentLine => RCurrentLine
  | RNone, RNone => RNone
  end.
Definition is_none (r : refresh) : bool := match r with RNone => true | _ => false end.

(** editor.rs:135-139. *)
Definition join_next_line_into (line : nat) (e : editor) : option editor :=
  match line_at e (S line), line_at e line with
  | Some next, Some this => Some (with_text e (upd (remove_at (S line) (e_content e)) line (this ++ next)) true)
  | _, _ => None
  end.

(** [usize::to_string]. *)
Definition number (n : nat) : ustr := to_string (Z.of_nat n).

(** editor.rs:147-176: the text of the status line.  [String::truncate] of line 176 cuts nothing
    unless the short form is longer than the console, and that form has one byte per character. *)
Definition status_text (width : nat) (e : editor) : ustr :=
  let dirty_marker := if e_dirty e then u "*" else [] in
  let long_details :=
    u " | " ++ (match e_name e with Some n => n | None => u "<NO NAME>" end) ++ dirty_marker ++
    u " | Ln " ++ number (e_line e + 1) ++ u ", Col " ++ number (e_col e + 1) ++ u " " in
  let status :=
    if width <=? utf8_len keys_summary + utf8_len long_details then
      let short_details := u " " ++ number (e_line e + 1) ++ u ":" ++ number (e_col e + 1) ++ u " " in
      (if utf8_len short_details <? width then repeat 32%N (width - utf8_len short_details) else [])
      ++ short_details
    else
      keys_summary ++ repeat 32%N (width - utf8_len long_details - utf8_len keys_summary) ++ long_details in
  if width <? utf8_len status then firstn width status else status.

(** editor.rs:147-182. *)
Definition refresh_status (w h : nat) (e : editor) : option (list eop) :=
  match h with
  | O => None
  | S h' => Some [ELocate 0 h'; status_color; EWrite (status_text w e)]
  end.

(** linebuffer.rs [range]. *)
Definition visible (w vcol : nat) (line : ustr) : ustr := firstn w (skipn vcol line).

(** editor.rs:196-211. *)
Definition print_row (w vcol : nat) (line : ustr) : eop :=
  if vcol <? length line then EPrint (visible w vcol line) else EPrint [].

(** editor.rs:189-213. *)
Definition refresh_all (w h : nat) (e : editor) : option (list eop) :=
  match refresh_status w h e with
  | None => None
  | Some status =>
    Some ([text_color; EClear All] ++ status ++ [text_color; ELocate 0 0] ++
          map (print_row w (e_vcol e)) (firstn (h - 1) (skipn (e_vline e) (e_content e))))
  end.

(** [a - b] of unsigned numbers. *)
Definition minus (a b : nat) : option nat := if a <? b then None else Some (a - b).

(** editor.rs:216-245. *)
Definition refresh_current_line (w : nat) (e : editor) : option (list eop) :=
  match minus (e_line e) (e_vline e), line_at e (e_line e) with
  | Some row, Some line =>
    Some ([text_color; ELocate 0 row; EClear CurrentLine] ++
          (if e_vcol e <? length line then [EWrite (visible w (e_vcol e) line)] else []))
  | _, _ => None
  end.

(** editor.rs:254-257 and 266-270. *)
Definition to_insert_col (line : nat) (e : editor) : option editor :=
  match line_at e line with
  | Some l => Some (with_pos e line (Nat.min (e_insert_col e) (length l)) (e_insert_col e))
  | None => None
  end.

(** editor.rs:249-258. *)
Definition move_down (nlines : nat) (e : editor) : option editor :=
  if e_line e + nlines <? length (e_content e) then to_insert_col (e_line e + nlines) e
  else match minus (length (e_content e)) 1 with Some l => to_insert_col l e | None => None end.

(** editor.rs:262-271. *)
Definition move_up (nlines : nat) (e : editor) : option editor :=
  if nlines <? e_line e then to_insert_col (e_line e - nlines) e else to_insert_col 0 e.

(** editor.rs:285-297. *)
Definition adjust_line (h : nat) (e : editor) (r : refresh) : option (editor * refresh) :=
  if e_line e <? e_vline e then Some (with_view e (e_line e) (e_vcol e), upgrade r RFull)
  else
    match minus (e_vline e + h) 2 with
    | None => None
    | Some bottom =>
      if bottom <? e_line e then
        match minus h 2 with
        | None => None
        | Some up =>
          Some (with_view e (if up <? e_line e then e_line e - up else 0) (e_vcol e), upgrade r RFull)
        end
      else Some (e, r)
    end.

(** editor.rs:299-305. *)
Definition adjust_col (w : nat) (e : editor) (r : refresh) : option (editor * refresh) :=
  if e_col e <? e_vcol e then Some (with_view e (e_vline e) (e_col e), upgrade r RFull)
  else if e_vcol e + w <=? e_col e then
    match minus (e_col e) w with
    | None => None
    | Some c => Some (with_view e (e_vline e) (c + 1), upgrade r RFull)
    end
  else Some (e, r).

(** editor.rs:311-323. *)
Definition draw (w h : nat) (e : editor) (r : refresh) : option (list eop) :=
  match r with
  | RFull => option_map (fun ops => EHide :: ops) (refresh_all w h e)
  | RCurrentLine =>
    match refresh_status w h e, refresh_current_line w e with
    | Some a, Some b => Some (EHide :: a ++ b)
    | _, _ => None
    end
  | RNone => option_map (fun ops => EHide :: ops ++ [text_color]) (refresh_status w h e)
  end.

(** editor.rs:285-338: what happens before reading a key, with the position of the cursor on the
    console.  The conversion to [u16] of lines 327-334 is left out: the position is in the console. *)
Definition before_key (w h : nat) (e : editor) (r : refresh) : option (editor * (nat * nat) * list eop) :=
  match adjust_line h e r with
  | None => None
  | Some (e, r) =>
    match adjust_col w e r with
    | None => None
    | Some (e, r) =>
      match draw w h e r, minus (e_col e) (e_vcol e), minus (e_line e) (e_vline e) with
      | Some ops, Some x, Some y => Some (e, (x, y), ops ++ [ELocate x y; EShow; ESyncNow])
      | _, _, _ => None
      end
    end
  end.

(** What a key does: the editor, what to refresh and the operations on the console. *)
Definition done : Type := option (editor * refresh * list eop).
Definition quietly (e : option editor) : done :=
  match e with Some e => Some (e, RNone, []) | None => None end.

(** Assignment to a line. *)
Definition set_line (e : editor) (line : ustr) : editor := with_text e (upd (e_content e) (e_line e) line) true.

(** editor.rs:361-405: [Key::Backspace].  The loop of lines 391-394 removes the characters before
    the cursor one by one. *)
Fixpoint remove_before (n col : nat) (line : ustr) : ustr :=
  match n with
  | O => line
  | S n => remove_before n (col - 1) (remove_at (col - 1) line)
  end.
Definition indentation_back (col : nat) : nat :=
  if indent_width <=? col then (col - 1) / indent_width * indent_width else 0.
Definition backspace (e : editor) : done :=
  if 0 <? e_col e then
    match line_at e (e_line e) with
    | None => None
    | Some line =>
      let nremove :=
        if e_col e <=? find_indent_end line then e_col e - indentation_back (e_col e) else 1 in
      let at_end := e_col e =? length line in
      let ops :=
        if at_end && (0 <? nremove) then EHide :: repeat (EClear PreviousChar) nremove ++ [EShow] else [] in
      let col := e_col e - nremove in
      let e' := with_pos e (e_line e) col col in
      Some (if 0 <? nremove then set_line e' (remove_before nremove (e_col e) line) else e',
            if at_end then RNone else RCurrentLine, ops)
    end
  else if 0 <? e_line e then
    match line_at e (e_line e - 1) with
    | None => None
    | Some previous =>
      match join_next_line_into (e_line e - 1) e with
      | None => None
      | Some e => Some (with_pos e (e_line e - 1) (length previous) (length previous), RFull, [])
      end
    end
  else Some (with_pos e (e_line e) (e_col e) (e_col e), RNone, []).

(** editor.rs:407-423: [Key::Delete] and [Key::EofOrDelete]. *)
Definition delete_key (e : editor) : done :=
  match line_at e (e_line e) with
  | None => None
  | Some line =>
    if e_col e <? length line then
      let line := remove_at (e_col e) line in
      if e_col e <? length line then Some (set_line e line, RFull, [])
      else Some (set_line e line, RNone, [EHide; EClear UntilNewLine; EShow])
    else if e_line e + 1 <? length (e_content e) then
      match join_next_line_into (e_line e) e with
      | None => None
      | Some e => Some (e, RFull, [])
      end
    else Some (e, RNone, [])
  end.

(** editor.rs:425-442: [Key::Char]; [x] is the column of the cursor on the console. *)
Definition char_key (w x : nat) (ch : N) (e : editor) : done :=
  match line_at e (e_line e), minus w 1 with
  | Some line, Some last =>
    let r := if e_col e <? length line then RCurrentLine else RNone in
    let e := set_line e (firstn (e_col e) line ++ ch :: skipn (e_col e) line) in
    Some (with_pos e (e_line e) (e_col e + 1) (e_col e + 1), r,
          if (x <? last) && is_none r then [EWrite [ch]] else [])
  | _, _ => None
  end.

(** editor.rs:449-457: [Key::Home]. *)
Definition home_key (e : editor) : done :=
  match line_at e (e_line e) with
  | None => None
  | Some line =>
    let col := if e_col e =? find_indent_end line then 0 else find_indent_end line in
    Some (with_pos e (e_line e) col col, RNone, [])
  end.

(** editor.rs:459-479: [Key::NewLine] and [Key::CarriageReturn]; [indent_len] counts bytes. *)
Definition newline_key (e : editor) : done :=
  match line_at e (e_line e) with
  | None => None
  | Some line =>
    let indent := copy_indent line in
    let indent_len := utf8_len indent in
    let appending := (e_line e + 1 =? length (e_content e)) && (e_col e =? length line) in
    let content := upd (e_content e) (e_line e) (firstn (e_col e) line) in
    let content := insert_at (S (e_line e)) (indent ++ skipn (e_col e) line) content in
    Some (with_pos (with_text e content true) (e_line e + 1) indent_len indent_len,
          if appending then RNone else RFull, [])
  end.

(** editor.rs:485-503: [Key::Tab].  The capacity of line 492 is what was asked for. *)
Definition tab_key (e : editor) : done :=
  match line_at e (e_line e) with
  | None => None
  | Some line =>
    let r := if e_col e <? length line then RCurrentLine else RNone in
    let new_pos := (e_col e + indent_width) / indent_width * indent_width in
    let new_text := repeat 32%N (new_pos - e_col e) in
    let e := set_line e (firstn (e_col e) line ++ new_text ++ skipn (e_col e) line) in
    Some (with_pos e (e_line e) new_pos new_pos, r, if is_none r then [EWrite new_text] else [])
  end.

(** editor.rs:340-507, except for the keys that leave. *)
Definition press (w h x : nat) (k : key) (e : editor) : done :=
  match k with
  | KEscape | KInterrupt | KUnknown => Some (e, RNone, [])
  | KArrowUp => quietly (move_up 1 e)
  | KArrowDown => quietly (move_down 1 e)
  | KArrowLeft =>
    Some (if 0 <? e_col e then with_pos e (e_line e) (e_col e - 1) (e_col e - 1) else e, RNone, [])
  | KArrowRight =>
    match line_at e (e_line e) with
    | None => None
    | Some line =>
      Some (if e_col e <? length line then with_pos e (e_line e) (e_col e + 1) (e_col e + 1) else e, RNone, [])
    end
  | KBackspace => backspace e
  | KDelete | KEofOrDelete => delete_key e
  | KChar ch => char_key w x ch e
  | KEnd =>
    match line_at e (e_line e) with
    | None => None
    | Some line => Some (with_pos e (e_line e) (length line) (length line), RNone, [])
    end
  | KHome => home_key e
  | KNewLine | KCarriageReturn => newline_key e
  | KPageDown => match minus h 2 with None => None | Some n => quietly (move_down n e) end
  | KPageUp => match minus h 2 with None => None | Some n => quietly (move_up n e) end
  | KTab => tab_key e
  end.
Definition leaves (k : key) : bool := match k with KEscape | KInterrupt => true | _ => false end.

(** editor.rs:282-508: the loop.  It either waits for a key after the last one of [keys], or has
    left, without reading the keys after the one that made it leave. *)
Inductive editing : Type := Waiting (e : editor) | Left (e : editor) (rest : list key).
Fixpoint edit_loop (w h : nat) (keys : list key) (e : editor) (r : refresh) : option (editing * list eop) :=
  match before_key w h e r with
  | None => None
  | Some (e, (x, y), ops) =>
    match keys with
    | [] => Some (Waiting e, ops)
    | k :: keys =>
      if leaves k then Some (Left e keys, ops)
      else
        match press w h x k e with
        | None => None
        | Some (e, r, ops') =>
          match edit_loop w h keys e r with
          | None => None
          | Some (res, ops'') => Some (res, ops ++ ops' ++ ops'')
          end
        end
    end
  end.

(** editor.rs:274-281. *)
Definition with_a_line (e : editor) : editor :=
  match e_content e with [] => with_text e [[]] (e_dirty e) | _ => e end.
Definition edit_interactively (w h : nat) (keys : list key) (e : editor) : option (editing * list eop) :=
  edit_loop w h keys (with_a_line e) RFull.

(** editor.rs:520-527: [edit], on a console whose synchronization is [sync]. *)
Definition edit (w h : nat) (sync : bool) (keys : list key) (e : editor) : option (editing * list eop) :=
  match edit_interactively w h keys e with
  | None => None
  | Some (Waiting e, ops) => Some (Waiting e, EEnterAlt :: ESync false :: ops)
  | Some (Left e rest, ops) => Some (Left e rest, EEnterAlt :: ESync false :: ops ++ [ESync sync; ELeaveAlt])
  end.

(** [str::lines]: each line without its end, [\n] or [\r\n]; what comes after the last end is a line
    if it is not empty. *)
Definition strip_cr (line : ustr) : ustr :=
  match rev line with
  | c :: r => if (c =? 13)%N then rev r else line
  | [] => line
  end.
Fixpoint lines_from (cur text : ustr) : list ustr :=
  match text with
  | [] => match cur with [] => [] | _ => [cur] end
  | c :: r => if (c =? 10)%N then strip_cr cur :: lines_from [] r else lines_from (cur ++ [c]) r
  end.
Definition lines (text : ustr) : list ustr := lines_from [] text.

(** editor.rs:529-536. *)
Definition load (name : option ustr) (text : ustr) (e : editor) : editor :=
  mkEditor name (lines text) false 0 0 0 0 0.

(** editor.rs:542-545. *)
Definition set_name (name : ustr) (e : editor) : editor :=
  mkEditor (Some name) (e_content e) false (e_vline e) (e_vcol e) (e_line e) (e_col e) (e_insert_col e).

(** editor.rs:547-551. *)
Definition text (e : editor) : ustr :=
  fold_left (fun contents line => contents ++ line ++ [10%N]) (e_content e) [].
