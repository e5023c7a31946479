(** Model of the interactive line reader: /repo/std/src/console/readline.rs.

    Simplifications, all over this file:
    - A [LineBuffer] is the list of its characters; C40 proves that the type behaves like one.
    - The console is the list of operations asked of it, in order.  I/O errors of the console are
      left out, so an operation always succeeds.
    - [debug_assert!]s are left out and machine arithmetic wraps around, as in release builds.
    - [cfg!(not(target_os = "windows"))] holds. *)
From Verif Require Import Base.
Local Open Scope nat_scope.
Local Open Scope list_scope.

(** /repo/std/src/console/mod.rs:50-111 [Key]. *)
Inductive key : Type :=
| KArrowDown | KArrowLeft | KArrowRight | KArrowUp | KBackspace | KCarriageReturn | KChar (c : N)
| KDelete | KEnd | KEofOrDelete | KEscape | KInterrupt | KHome | KNewLine | KPageDown | KPageUp
| KTab | KUnknown.

(** The operations of /repo/std/src/console/mod.rs [Console] that the line reader uses. *)
Inductive cop : Type :=
| CHide | CShow | CMove (off : Z) | CWrite (s : ustr) | CPrint (s : ustr) | CSync.

(** readline.rs:24 [SECURE_CHAR]. *)
Definition secure_char : N := 42%N.

(** readline.rs:26-30 [DispatchResult], plus the errors of lines 240-246 and 259-261. *)
Inductive dispatch : Type := DContinue | DSubmit | DEof | DInterrupt.

(** readline.rs:33-44 [Readline], without the console. *)
Record reader : Type := mkReader {
  r_history : option (list ustr);
  r_echo : bool;
  r_width : nat;
  r_line : ustr;
  r_pos : nat;
  r_view : nat;
  r_rendered : ustr;
  r_rendered_len : nat;
  r_history_pos : nat }.

(** Rust's [as i16], and the negation and subtraction of two [i16]s. *)
Definition wrap16 (z : Z) : Z := ((z + 32768) mod 65536 - 32768)%Z.
Definition as_i16 (n : nat) : Z := wrap16 (Z.of_nat n).
Definition neg16 (z : Z) : Z := wrap16 (- z).
Definition sub16 (a b : Z) : Z := wrap16 (a - b).

(** readline.rs:48-58 [adjust_view]. *)
Definition adjust_view (width pos view : nat) : nat :=
  if width =? 0 then 0
  else if pos <? view then pos
  else if view + width <? pos then pos - width
  else view.

(** readline.rs:61-63 [current_pos]. *)
Definition current_pos (r : reader) : nat := r_pos r - r_view r.

(** readline.rs:66-74 [render_line]; linebuffer.rs [range]. *)
Definition render_line (r : reader) (view : nat) : ustr :=
  if r_echo r
  then firstn (r_width r) (skipn view (r_line r))
  else repeat secure_char (min (length (r_line r) - view) (r_width r)).

(** readline.rs:77-80 [sync_rendered]. *)
Definition sync_rendered (r : reader) : reader :=
  let s := render_line r (r_view r) in
  mkReader (r_history r) (r_echo r) (r_width r) (r_line r) (r_pos r) (r_view r)
    s (length s) (r_history_pos r).

(** Assignments to the fields [line], [pos] and [view_start] of a [Readline]. *)
Definition with_line (r : reader) (line : ustr) (pos view : nat) : reader :=
  mkReader (r_history r) (r_echo r) (r_width r) line pos view
    (r_rendered r) (r_rendered_len r) (r_history_pos r).

(** readline.rs:83-87 [reset_view_to_end]. *)
Definition reset_view_to_end (r : reader) : reader :=
  sync_rendered (with_line r (r_line r) (r_pos r)
    (if r_width r =? 0 then 0 else r_pos r - r_width r)).

(** readline.rs:90-109 [redraw_line].  The subtraction of line 104 may wrap around below zero, and
    [reset as i16] then is its negative value. *)
Definition redraw_line (r : reader) (old_pos clear_len new_pos : nat) : list cop :=
  let written := max (r_rendered_len r) clear_len in
  let reset := (Z.of_nat written - Z.of_nat new_pos)%Z in
  [CHide]
  ++ (if 0 <? old_pos then [CMove (neg16 (as_i16 old_pos))] else [])
  ++ (match r_rendered r with [] => [] | s => [CWrite s] end)
  ++ (if r_rendered_len r <? clear_len
      then [CWrite (repeat 32%N (clear_len - r_rendered_len r))] else [])
  ++ (if (reset =? 0)%Z then [] else [CMove (neg16 (wrap16 reset))])
  ++ [CShow].

(** linebuffer.rs:117-121 [insert] and 124-130 [remove]. *)
Definition insert_at (line : ustr) (pos : nat) (c : N) : ustr :=
  firstn pos line ++ c :: skipn pos line.
Definition remove_at (line : ustr) (pos : nat) : ustr :=
  firstn pos line ++ skipn (pos + 1) line.

(** readline.rs:112-132 [erase_at]. *)
Definition erase_at (r : reader) (cursor_pos remove_pos : nat) : list cop * ustr :=
  let delta := cursor_pos - remove_pos in
  let tail_len := length (r_line r) - remove_pos - 1 in
  ([CHide]
   ++ (if 0 <? delta then [CMove (neg16 (as_i16 delta))] else [])
   ++ [CWrite (if r_echo r then skipn (remove_pos + 1) (r_line r)
               else repeat secure_char tail_len);
       CWrite [32%N];
       CMove (neg16 (as_i16 (tail_len + 1)));
       CShow],
   remove_at (r_line r) remove_pos).

(** What a handler leaves: its result, the state of the reader, the operations on the console. *)
Definition step : Type := (dispatch * reader * list cop)%type.

(** readline.rs:135-154 [do_backspace]. *)
Definition do_backspace (r : reader) : step :=
  if r_pos r =? 0 then (DContinue, r, [])
  else if (r_view r =? 0) && (length (r_line r) <=? r_width r) then
    let (ops, line) := erase_at r (r_pos r) (r_pos r - 1) in
    (DContinue, sync_rendered (with_line r line (r_pos r - 1) (r_view r)), ops)
  else
    let old_pos := current_pos r in
    let clear_len := r_rendered_len r in
    let pos := r_pos r - 1 in
    let r' := sync_rendered (with_line r (remove_at (r_line r) pos) pos
                               (adjust_view (r_width r) pos (r_view r))) in
    (DContinue, r', redraw_line r' old_pos clear_len (current_pos r')).

(** readline.rs:157-168 [do_carriage_return] and 286-289 [do_newline]. *)
Definition do_newline (r : reader) : step := (DSubmit, r, [CPrint []]).

(** readline.rs:171-212 [do_char]. *)
Definition do_char (r : reader) (c : N) : step :=
  if r_width r =? 0 then (DContinue, r, [])
  else
    let line_len := length (r_line r) in
    let view' := adjust_view (r_width r) (r_pos r + 1) (r_view r) in
    if (view' =? r_view r) && (line_len <? r_width r) then
      if r_pos r <? line_len then
        (DContinue,
         sync_rendered (with_line r (insert_at (r_line r) (r_pos r) c) (r_pos r + 1) (r_view r)),
         [CHide]
         ++ (if r_echo r then [CWrite [c]; CWrite (skipn (r_pos r) (r_line r))]
             else [CWrite (repeat secure_char (line_len - r_pos r + 1))])
         ++ [CMove (neg16 (as_i16 (line_len - r_pos r))); CShow])
      else
        (DContinue,
         sync_rendered (with_line r (insert_at (r_line r) line_len c) (r_pos r + 1) (r_view r)),
         [CWrite [if r_echo r then c else secure_char]])
    else
      let old_pos := current_pos r in
      let clear_len := r_rendered_len r in
      let r' := sync_rendered (with_line r (insert_at (r_line r) (r_pos r) c) (r_pos r + 1) view') in
      (DContinue, r', redraw_line r' old_pos clear_len (current_pos r')).

(** readline.rs:215-232 [do_delete]. *)
Definition do_delete (r : reader) : step :=
  if length (r_line r) <=? r_pos r then (DContinue, r, [])
  else if (r_view r =? 0) && (length (r_line r) <=? r_width r) then
    let (ops, line) := erase_at r (r_pos r) (r_pos r) in
    (DContinue, sync_rendered (with_line r line (r_pos r) (r_view r)), ops)
  else
    let old_pos := current_pos r in
    let clear_len := r_rendered_len r in
    let r' := sync_rendered (with_line r (remove_at (r_line r) (r_pos r)) (r_pos r)
                               (adjust_view (r_width r) (r_pos r) (r_view r))) in
    (DContinue, r', redraw_line r' old_pos clear_len (current_pos r')).

(** readline.rs:264-283 [do_move_to]. *)
Definition do_move_to (r : reader) (new_pos : nat) : step :=
  if new_pos =? r_pos r then (DContinue, r, [])
  else
    let old_pos := current_pos r in
    let view' := adjust_view (r_width r) new_pos (r_view r) in
    if view' =? r_view r then
      (DContinue, with_line r (r_line r) new_pos (r_view r),
       [CMove (sub16 (as_i16 new_pos) (as_i16 (r_pos r)))])
    else
      let clear_len := r_rendered_len r in
      let r' := sync_rendered (with_line r (r_line r) new_pos view') in
      (DContinue, r', redraw_line r' old_pos clear_len (current_pos r')).

(** readline.rs:235-237 [do_end], 249-251 [do_home]. *)
Definition do_end (r : reader) : step := do_move_to r (length (r_line r)).
Definition do_home (r : reader) : step := do_move_to r 0.

(** readline.rs:240-246 [do_eof_or_delete]. *)
Definition do_eof_or_delete (r : reader) : step :=
  match r_line r with
  | [] => (DEof, r, [])
  | _ => do_delete r
  end.

(** readline.rs:254-256 [do_ignore], 259-261 [do_interrupt]. *)
Definition do_ignore (r : reader) : step := (DContinue, r, []).
Definition do_interrupt (r : reader) : step := (DInterrupt, r, []).

(** readline.rs:292-323 [do_up_down]; [up] says whether [delta] is negative.  The subscripts of
    lines 311-312 are always in range (the invariant of Readline_Proofs). *)
Definition do_up_down (r : reader) (up : bool) : step :=
  match r_history r with
  | None => (DContinue, r, [])
  | Some history =>
    if (if up then r_history_pos r =? 0 else r_history_pos r =? length history - 1)
    then (DContinue, r, [])
    else
      let new_history_pos := if up then r_history_pos r - 1 else r_history_pos r + 1 in
      let history := upd history (r_history_pos r) (r_line r) in
      let new_line := nth new_history_pos history [] in
      let old_pos := current_pos r in
      let clear_len := r_rendered_len r in
      let r' := reset_view_to_end
        (mkReader (Some history) (r_echo r) (r_width r) new_line (length new_line) (r_view r)
           (r_rendered r) (r_rendered_len r) new_history_pos) in
      (DContinue, r', redraw_line r' old_pos clear_len (current_pos r'))
  end.

(** readline.rs:326-336 [finish]: the line and the history. *)
Definition finish (r : reader) : ustr * option (list ustr) :=
  (r_line r,
   match r_history r with
   | None => None
   | Some history =>
     Some (match r_line r with
           | [] => removelast history
           | _ => upd history (length history - 1) (r_line r)
           end)
   end).

(** The prefix of [n] bytes of a string; [None] when it does not end in between characters, where
    the slicing of readline.rs:356 panics. *)
Fixpoint byte_prefix (n : nat) (s : ustr) : option ustr :=
  if n =? 0 then Some [] else
  match s with
  | [] => None
  | c :: r =>
    let k := utf8_len1 c in
    if k <=? n then option_map (cons c) (byte_prefix (n - k) r) else None
  end.

(** readline.rs:351-361: the prompt that fits in the console. *)
Definition fit_prompt (console_width : nat) (prompt : ustr) : option ustr :=
  if utf8_len prompt <? console_width then Some prompt
  else if 5 <=? console_width
  then option_map (fun s => s ++ [46; 46; 46]%N) (byte_prefix (console_width - 5) prompt)
  else Some [].

(** readline.rs:339-402 [new]; [None] is the panic of line 356. *)
Definition new_reader (console_width : nat) (prompt previous : ustr) (history : option (list ustr))
    (echo : bool) : option (reader * list cop) :=
  match fit_prompt console_width prompt with
  | None => None
  | Some prompt =>
    let input_width := console_width - utf8_len prompt - 1 in
    let pos := length previous in
    let view := if input_width =? 0 then 0 else pos - input_width in
    let (history, history_pos) :=
      match history with
      | Some h => (Some (h ++ [previous]), length (h ++ [previous]) - 1)
      | None => (None, 0)
      end in
    let r := sync_rendered (mkReader history echo input_width previous pos
                              (adjust_view input_width pos view) [] 0 history_pos) in
    let ops := match prompt ++ r_rendered r with
               | [] => []
               | s => [CWrite s; CSync]
               end in
    Some (r, ops)
  end.

(** readline.rs:407-423: the handler of a key. *)
Definition press (r : reader) (k : key) : step :=
  match k with
  | KArrowDown => do_up_down r false
  | KArrowLeft => do_move_to r (r_pos r - 1)
  | KArrowRight => do_move_to r (min (r_pos r + 1) (length (r_line r)))
  | KArrowUp => do_up_down r true
  | KBackspace => do_backspace r
  | KCarriageReturn => do_newline r
  | KChar c => do_char r c
  | KDelete => do_delete r
  | KEnd => do_end r
  | KEofOrDelete => do_eof_or_delete r
  | KEscape => do_ignore r
  | KHome => do_home r
  | KInterrupt => do_interrupt r
  | KNewLine => do_newline r
  | KPageDown | KPageUp | KTab | KUnknown => do_ignore r
  end.

(** How reading a line ends: with the line, with an error, or waiting for more keys.  All three
    leave the history as it is by then, because it belongs to the caller. *)
Inductive reading : Type :=
| Entered (line : ustr) (history : option (list ustr))
| AtEof (history : option (list ustr))
| Interrupted (history : option (list ustr))
| Waiting (r : reader).

(** readline.rs:405-431 [run], on the keys pressed so far: the keys left, and the operations on the
    console. *)
Fixpoint run (r : reader) (keys : list key) : reading * list key * list cop :=
  match keys with
  | [] => (Waiting r, [], [])
  | k :: keys =>
    match press r k with
    | (DContinue, r, ops) => let '(o, rest, ops') := run r keys in (o, rest, ops ++ ops')
    | (DSubmit, r, ops) => let (line, history) := finish r in (Entered line history, keys, ops)
    | (DEof, r, ops) => (AtEof (r_history r), keys, ops)
    | (DInterrupt, r, ops) => (Interrupted (r_history r), keys, ops)
    end
  end.

(** readline.rs:437-445 [read_line_interactive]. *)
Definition read_line_interactive (console_width : nat) (prompt previous : ustr)
    (history : option (list ustr)) (echo : bool) (keys : list key)
    : option (reading * list key * list cop) :=
  match new_reader console_width prompt previous history echo with
  | None => None
  | Some (r, ops) => let '(o, rest, ops') := run r keys in Some (o, rest, ops ++ ops')
  end.

(** readline.rs:448-480 [read_line_raw]; [inr] is the line typed when the keys ran out. *)
Inductive raw : Type := RawLine (line : ustr) | RawEof | RawInterrupted | RawWaiting (line : ustr).

Fixpoint read_line_raw (line : ustr) (keys : list key) : raw * list key :=
  match keys with
  | [] => (RawWaiting line, [])
  | k :: keys =>
    match k with
    | KBackspace => read_line_raw (removelast line) keys
    | KCarriageReturn | KNewLine => (RawLine line, keys)
    | KChar c => read_line_raw (line ++ [c]) keys
    | KEofOrDelete => (RawEof, keys)
    | KInterrupt => (RawInterrupted, keys)
    | KUnknown => read_line_raw (line ++ [63%N]) keys
    | _ => read_line_raw line keys
    end
  end.

(** readline.rs:484-495 [read_line] and 501-506 [read_line_secure], by whether the console is
    interactive; [SecureRaw] is the error of line 503. *)
Inductive read_result : Type :=
| Typed (o : option (reading * list key * list cop)) | Raw (o : raw * list key) | SecureRaw.

Definition read_line (interactive : bool) (console_width : nat) (prompt previous : ustr)
    (history : option (list ustr)) (keys : list key) : read_result :=
  if interactive
  then Typed (read_line_interactive console_width prompt previous history true keys)
  else Raw (read_line_raw [] keys).

Definition read_line_secure (interactive : bool) (console_width : nat) (prompt : ustr)
    (keys : list key) : read_result :=
  if interactive
  then Typed (read_line_interactive console_width prompt [] None false keys)
  else SecureRaw.
