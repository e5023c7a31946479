(** Editing a line with a cursor and a history, and a row of a terminal.  Nothing here knows how
    the line reader represents its line or what it draws; only the names of the keys and of the
    console operations come from the model. *)
From Verif Require Import Base Readline_Model.
Local Open Scope nat_scope.
Local Open Scope list_scope.

(** * The editor *)

(** The text on both sides of the cursor: [before] has the closest character first.  The same for
    the history around the entry being edited; [here] is what the history holds for that entry,
    which only gets the edits once the user moves to another entry. *)
Record editor : Type := mkEditor {
  before : ustr; after : ustr; older : list ustr; here : ustr; newer : list ustr }.

Definition text_of (e : editor) : ustr := rev (before e) ++ after e.

(** The whole history, oldest first. *)
Definition entries (e : editor) : list ustr := rev (older e) ++ here e :: newer e.

Definition put (e : editor) (b a : ustr) : editor := mkEditor b a (older e) (here e) (newer e).

Definition erase_next (e : editor) : editor :=
  match after e with [] => e | _ :: a => put e (before e) a end.

(** The effect of a key that does not end the line.  [room] says whether there is any space in the
    console to type in. *)
Definition edit (room : bool) (e : editor) (k : key) : editor :=
  match k with
  | KChar c => if room then put e (c :: before e) (after e) else e
  | KBackspace => match before e with [] => e | _ :: b => put e b (after e) end
  | KDelete | KEofOrDelete => erase_next e
  | KArrowLeft => match before e with [] => e | c :: b => put e b (c :: after e) end
  | KArrowRight => match after e with [] => e | c :: a => put e (c :: before e) a end
  | KHome => put e [] (text_of e)
  | KEnd => put e (rev (text_of e)) []
  | KArrowUp =>
    match older e with
    | [] => e
    | o :: os => mkEditor (rev o) [] os o (text_of e :: newer e)
    end
  | KArrowDown =>
    match newer e with
    | [] => e
    | n :: ns => mkEditor (rev n) [] (text_of e :: older e) n ns
    end
  | _ => e
  end.

(** How typing ends. *)
Inductive typed : Type := Line (e : editor) | Eof (e : editor) | Stopped (e : editor) | More (e : editor).

Fixpoint typing (room : bool) (e : editor) (keys : list key) : typed * list key :=
  match keys with
  | [] => (More e, [])
  | k :: ks =>
    match k with
    | KNewLine | KCarriageReturn => (Line e, ks)
    | KInterrupt => (Stopped e, ks)
    | KEofOrDelete =>
      match text_of e with [] => (Eof e, ks) | _ => typing room (edit room e k) ks end
    | _ => typing room (edit room e k) ks
    end
  end.

(** The editor when reading starts with the text [previous]. *)
Definition opened (previous : ustr) (history : list ustr) : editor :=
  mkEditor (rev previous) [] (rev history) previous [].

(** The history after entering a line: the line replaces the newest entry, the one made when
    reading started, or that entry goes away if the line is empty. *)
Definition remembered (e : editor) : list ustr :=
  removelast (entries e) ++ match text_of e with [] => [] | l => [l] end.

(** There are at least two columns for the text once the prompt is shown.  A prompt of [bytes] that
    does not fit in [width] columns is cut so that it always leaves two, or dropped. *)
Definition has_room (width bytes : nat) : bool :=
  if bytes <? width then 2 <=? width - bytes else 2 <=? width.

(** What the caller sees agrees with the editor. *)
Definition entered_as (history : option (list ustr)) (o : reading) (t : typed) : Prop :=
  match o, t with
  | Entered line h, Line e =>
    line = text_of e /\ h = option_map (fun _ => remembered e) history
  | AtEof h, Eof e | Interrupted h, Stopped e =>
    h = option_map (fun _ => entries e) history
  | Waiting r, More e =>
    r_line r = text_of e /\ r_pos r = length (before e) /\
    r_history r = option_map (fun _ => entries e) history
  | _, _ => False
  end.

(** * The terminal *)

(** A row of characters, the column of the cursor and whether the cursor is visible. *)
Record row : Type := mkRow { cell : nat -> N; column : nat; visible : bool }.

Definition blank_row : row := mkRow (fun _ => 32%N) 0 true.

(** [s] written from column [c] on. *)
Definition over (cells : nat -> N) (c : nat) (s : ustr) (i : nat) : N :=
  if (c <=? i) && (i <? c + length s) then nth (i - c) s 32%N else cells i.

(** What an operation does to a row of [width] columns; [None] if the cursor would leave it.  Every
    character takes one column. *)
Definition draw1 (width : nat) (w : row) (o : cop) : option row :=
  match o with
  | CHide => Some (mkRow (cell w) (column w) false)
  | CShow => Some (mkRow (cell w) (column w) true)
  | CSync => Some w
  | CPrint _ => Some blank_row
  | CWrite s =>
    if column w + length s <? width
    then Some (mkRow (over (cell w) (column w) s) (column w + length s) (visible w)) else None
  | CMove z =>
    let c := (Z.of_nat (column w) + z)%Z in
    if (0 <=? c)%Z && (c <? Z.of_nat width)%Z
    then Some (mkRow (cell w) (Z.to_nat c) (visible w)) else None
  end.

Fixpoint draw (width : nat) (w : row) (ops : list cop) : option row :=
  match ops with
  | [] => Some w
  | o :: ops => match draw1 width w o with Some w => draw width w ops | None => None end
  end.

(** The row has exactly [s] from its first column on. *)
Definition shows (w : row) (s : ustr) : Prop := forall i, cell w i = nth i s 32%N.

(** The text as displayed: a password is as many asterisks. *)
Definition displayed (echo : bool) (s : ustr) : ustr :=
  if echo then s else map (fun _ => 42%N) s.

(** The prompt as displayed, for prompts with one byte per character. *)
Definition shown_prompt (width : nat) (prompt : ustr) : ustr :=
  if length prompt <? width then prompt
  else if 5 <=? width then firstn (width - 5) prompt ++ [46; 46; 46]%N else [].

Definition one_byte (s : ustr) : Prop := forall c, In c s -> utf8_len1 c = 1.

(** The row shows the prompt followed by a part of the text, as long as there is space for, and the
    cursor is at the point of the text where it should be. *)
Definition row_shows (width : nat) (prompt : ustr) (echo : bool) (e : editor) (w : row) : Prop :=
  exists view,
    view <= length (before e) /\
    shows w (prompt ++ firstn (width - length prompt - 1) (skipn view (displayed echo (text_of e)))) /\
    column w = length prompt + (length (before e) - view) /\
    column w < width /\ visible w = true.

(** Two keys that are the same but for the character typed. *)
Definition same_shape (k k' : key) : Prop :=
  match k, k' with KChar _, KChar _ => True | _, _ => k = k' end.

(** The keys that count when the input is not interactive, and what they stand for: a character that
    is not understood is a question mark, and moving around does nothing. *)
Definition plain (k : key) : list key :=
  match k with
  | KUnknown => [KChar 63%N]
  | KChar _ | KBackspace | KCarriageReturn | KNewLine | KInterrupt => [k]
  | _ => []
  end.

Definition raw_as (o : raw) (t : typed) : Prop :=
  match o, t with
  | RawLine l, Line e | RawWaiting l, More e => l = text_of e
  | RawInterrupted, Stopped _ => True
  | _, _ => False
  end.

(** Keys that leave all texts alone. *)
Definition only_moves (k : key) : Prop :=
  match k with KChar _ | KBackspace | KDelete | KEofOrDelete => False | _ => True end.

Definition goes_on (k : key) : Prop :=
  match k with KNewLine | KCarriageReturn | KInterrupt | KEofOrDelete => False | _ => True end.
