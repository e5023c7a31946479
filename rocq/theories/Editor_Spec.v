(** What the editor is for: a text with a cursor in it, and a screen with a window of that text. *)
From Coq Require Import String.
From Verif Require Import Base Colors_Model Strings_Model Readline_Model Gfx_Model Gfx_Spec Editor_Model.
Local Open Scope string_scope.
Local Open Scope nat_scope.
Local Open Scope list_scope.

(** ** A text with a cursor *)

(** All that comes before the cursor, all that comes after it, and the column that vertical moves aim
    at.  The lines are separated by newlines, character 10. *)
Record writing : Type := mkWriting { before : ustr; after : ustr; aim : nat }.

Definition whole (b : writing) : ustr := before b ++ after b.

Fixpoint first_line (t : ustr) : ustr :=
  match t with
  | [] => []
  | c :: r => if (c =? 10)%N then [] else c :: first_line r
  end.
Definition last_line (t : ustr) : ustr := rev (first_line (rev t)).
Definition newlines (t : ustr) : nat := count_occ N.eq_dec t 10%N.

(** The line and the column of the cursor, from zero, and the text of the line. *)
Definition row (b : writing) : nat := newlines (before b).
Definition column (b : writing) : nat := length (last_line (before b)).
Definition this_line (b : writing) : ustr := last_line (before b) ++ first_line (after b).

(** How many characters come before a line. *)
Fixpoint line_start (n : nat) (t : ustr) : nat :=
  match n, t with
  | O, _ => 0
  | _, [] => 0
  | S m, c :: r => S (line_start (if (c =? 10)%N then m else n) r)
  end.

(** The cursor after so many characters. *)
Definition cursor_at (k aim : nat) (b : writing) : writing :=
  mkWriting (firstn k (whole b)) (skipn k (whole b)) aim.
(** In another column of the line. *)
Definition in_column (c : nat) (b : writing) : writing := cursor_at (length (before b) - column b + c) c b.
(** In another line, in the column aimed at or at its end. *)
Definition in_line (l : nat) (b : writing) : writing :=
  let k := line_start l (whole b) in
  cursor_at (k + Nat.min (aim b) (length (first_line (skipn k (whole b))))) (aim b) b.

(** The cursor aims at the column where it is. *)
Definition here (before after : ustr) : writing := mkWriting before after (length (last_line before)).

Fixpoint leading (p : N -> bool) (t : ustr) : ustr :=
  match t with
  | c :: r => if p c then c :: leading p r else []
  | [] => []
  end.
Definition is_space (c : N) : bool := (c =? 32)%N.
Definition drop_last (n : nat) (t : ustr) : ustr := firstn (length t - n) t.

(** What each key does, on a screen with [h] rows.  The last one is for the status line, and pages
    have one line less than what remains. *)
Definition type_key (h : nat) (k : key) (b : writing) : writing :=
  match k with
  | KChar c => here (before b ++ [c]) (after b)
  | KNewLine | KCarriageReturn => here (before b ++ 10%N :: leading is_whitespace (this_line b)) (after b)
  | KTab => here (before b ++ repeat 32%N (4 - column b mod 4)) (after b)
  | KBackspace =>
    let n := if (0 <? column b) && forallb is_space (last_line (before b)) then S ((column b - 1) mod 4) else 1 in
    here (drop_last n (before b)) (after b)
  | KDelete | KEofOrDelete => mkWriting (before b) (tl (after b)) (aim b)
  | KArrowLeft => if column b =? 0 then b else in_column (column b - 1) b
  | KArrowRight => match first_line (after b) with [] => b | _ => in_column (column b + 1) b end
  | KHome =>
    let indent := length (leading is_space (this_line b)) in
    in_column (if column b =? indent then 0 else indent) b
  | KEnd => in_column (length (this_line b)) b
  | KArrowUp => in_line (row b - 1) b
  | KArrowDown => in_line (Nat.min (row b + 1) (newlines (whole b))) b
  | KPageUp => in_line (row b - (h - 2)) b
  | KPageDown => in_line (Nat.min (row b + (h - 2)) (newlines (whole b))) b
  | KEscape | KInterrupt | KUnknown => b
  end.

(** Spaces other than those of ASCII. *)
Definition wide_space (c : N) : bool := is_whitespace c && (128 <=? c)%N.
Definition no_wide_spaces (t : ustr) : Prop := forall c, In c t -> wide_space c = false.

(** A character is not a newline: that is another key. *)
Definition plain_key (k : key) : Prop :=
  match k with KChar c => c <> 10%N /\ wide_space c = false | _ => True end.

(** The editor has a text with a cursor in it.  All lines end in a newline when the text is asked for. *)
Record holds (e : editor) (b : writing) : Prop := mkHolds {
  h_text : text e = whole b ++ [10%N];
  h_lines : forall l, In l (e_content e) -> ~ In 10%N l;
  h_row : e_line e = row b;
  h_column : e_col e = column b;
  h_aim : e_insert_col e = aim b
}.

(** ** Texts of files *)

(** Ends of lines are one character, and the last line has one. *)
Fixpoint unix_text (t : ustr) : ustr :=
  match t with
  | c :: r =>
    match r with
    | d :: _ => if ((c =? 13) && (d =? 10))%N then unix_text r else c :: unix_text r
    | [] => if (c =? 10)%N then [c] else [c; 10%N]
    end
  | [] => []
  end.

(** ** The screen *)

Definition color : Type := (option N * option N)%type.
(** A character and its colors. *)
Definition glyph : Type := (N * color)%type.
Record screen : Type := mkScreen {
  g_cell : nat -> nat -> glyph;
  g_x : nat;
  g_y : nat;
  g_on : bool;
  g_color : color;
  g_saved : option ((nat -> nat -> glyph) * (nat * nat) * color)
}.

Definition put_at (x y : nat) (g : glyph) (cells : nat -> nat -> glyph) : nat -> nat -> glyph :=
  fun c r => if (c =? x) && (r =? y) then g else cells c r.
Definition moved (s : screen) (cells : nat -> nat -> glyph) (x y : nat) : screen :=
  mkScreen cells x y (g_on s) (g_color s) (g_saved s).

(** The next row, scrolling after the last one. *)
Definition new_row (h : nat) (s : screen) : screen :=
  if g_y s + 1 <? h then moved s (g_cell s) 0 (g_y s + 1)
  else moved s (fun c r => if r <? h - 1 then g_cell s c (r + 1) else (32%N, g_color s)) 0 (g_y s).
Definition type_glyph (w h : nat) (s : screen) (c : N) : screen :=
  let s := if g_x s <? w then s else new_row h s in
  moved s (put_at (g_x s) (g_y s) (c, g_color s) (g_cell s)) (g_x s + 1) (g_y s).
Definition type_glyphs (w h : nat) (t : ustr) (s : screen) : screen := fold_left (type_glyph w h) (printable t) s.

(** What the operations of a console do to a screen of [w] columns and [h] rows. *)
Definition act (w h : nat) (s : screen) (o : eop) : screen :=
  let blank := (32%N, g_color s) in
  match o with
  | EHide => mkScreen (g_cell s) (g_x s) (g_y s) false (g_color s) (g_saved s)
  | EShow => mkScreen (g_cell s) (g_x s) (g_y s) true (g_color s) (g_saved s)
  | EColor fg bg => mkScreen (g_cell s) (g_x s) (g_y s) (g_on s) (fg, bg) (g_saved s)
  | EClear All => moved s (fun _ _ => blank) 0 0
  | EClear CurrentLine => moved s (fun c r => if r =? g_y s then blank else g_cell s c r) 0 (g_y s)
  | EClear PreviousChar =>
    if 0 <? g_x s then moved s (put_at (g_x s - 1) (g_y s) blank (g_cell s)) (g_x s - 1) (g_y s) else s
  | EClear UntilNewLine =>
    moved s (fun c r => if (g_x s <=? c) && (r =? g_y s) then blank else g_cell s c r) (g_x s) (g_y s)
  | ELocate x y => moved s (g_cell s) x y
  | EWrite t => type_glyphs w h t s
  | EPrint t => new_row h (type_glyphs w h t s)
  | ESyncNow | ESync _ => s
  | EEnterAlt =>
    mkScreen (fun _ _ => blank) 0 0 (g_on s) (g_color s) (Some (g_cell s, (g_x s, g_y s), g_color s))
  | ELeaveAlt =>
    match g_saved s with
    | Some (cells, (x, y), col) => mkScreen cells x y (g_on s) col None
    | None => s
    end
  end.
Definition acts (w h : nat) (ops : list eop) (s : screen) : screen := fold_left (act w h) ops s.

(** The character in a place of the text, and a space where there is none. *)
Definition shown_char (t : ustr) (l c : nat) : N :=
  if l <=? newlines t
  then nth c (printable (first_line (skipn (line_start l t) t))) 32%N
  else 32%N.

(** The status line: the position of the cursor at the right and, if there is room, the name of the
    program before it and a reminder at the left. *)
Definition status_line (w : nat) (name : option ustr) (dirty : bool) (b : writing) : ustr :=
  let ln := to_string (Z.of_nat (row b) + 1) in
  let col := to_string (Z.of_nat (column b) + 1) in
  let long := u " | " ++ (match name with Some n => n | None => u "<NO NAME>" end) ++ (if dirty then u "*" else [])
              ++ u " | Ln " ++ ln ++ u ", Col " ++ col ++ u " " in
  let short := u " " ++ ln ++ u ":" ++ col ++ u " " in
  if length (u " ESC Exit ") + length long <? w
  then u " ESC Exit " ++ repeat 32%N (w - length (u " ESC Exit ") - length long) ++ long
  else firstn w (repeat 32%N (w - length short) ++ short).

(** A window of the text with the cursor in it, in the place where the cursor of the screen is. *)
Definition shows (w h : nat) (name : option ustr) (dirty : bool) (b : writing) (s : screen) : Prop :=
  exists top left,
    (top <= row b < top + (h - 1)) /\ (left <= column b < left + w) /\
    g_x s = column b - left /\ g_y s = row b - top /\ g_on s = true /\
    (forall c r, c < w -> r < h - 1 -> g_cell s c r = (shown_char (whole b) (top + r) (left + c), (Some 7%N, None))) /\
    (forall c, c < w -> g_cell s c (h - 1) = (nth c (status_line w name dirty b) 0%N, (Some 15%N, Some 4%N))).

(** Names in ASCII, without control characters. *)
Definition ascii_name (name : option ustr) : Prop :=
  match name with Some n => forall c, In c n -> (32 <= c < 127)%N | None => True end.

(** Whether any of the keys changes the text. *)
Fixpoint modifies (h : nat) (keys : list key) (b : writing) : bool :=
  match keys with
  | [] => false
  | k :: keys => negb (ustr_eqb (whole b) (whole (type_key h k b))) || modifies h keys (type_key h k b)
  end.
Definition type_keys (h : nat) (keys : list key) (b : writing) : writing := fold_left (fun b k => type_key h k b) keys b.

(** ** Programs over time *)

(** The program of a machine: its name, its text with a cursor, whether there are no lines at all, and
    whether it has been modified. *)
Record paper : Type := mkPaper { p_name : option ustr; p_writing : writing; p_empty : bool; p_dirty : bool }.
Definition paper_text (p : paper) : ustr := if p_empty p then [] else whole (p_writing p) ++ [10%N].

(** What happens to it: it is loaded (NEW loads nothing), saved with a name, or edited with some keys on a
    screen of some size. *)
Inductive event : Type :=
| Loaded (name : option ustr) (text : ustr)
| Saved (name : ustr)
| Edited (w h : nat) (keys : list key).
Definition on_paper (p : paper) (v : event) : paper :=
  match v with
  | Loaded name t =>
    mkPaper name (mkWriting [] (removelast (unix_text t)) 0) match t with [] => true | _ => false end false
  | Saved name => mkPaper (Some name) (p_writing p) (p_empty p) false
  | Edited _ h keys =>
    mkPaper (p_name p) (type_keys h keys (p_writing p)) false (p_dirty p || modifies h keys (p_writing p))
  end.
(** Texts and keys without wide spaces, and keys that do not leave. *)
Definition good_event (v : event) : Prop :=
  match v with
  | Loaded _ t => no_wide_spaces t
  | Saved _ => True
  | Edited w h keys => 1 <= w /\ 2 <= h /\ Forall plain_key keys /\ forall k, In k keys -> leaves k = false
  end.

(** In the code, the editor is left with a key. *)
Definition in_code (e : option editor) (v : event) : option editor :=
  match e with
  | None => None
  | Some e =>
    match v with
    | Loaded name t => Some (load name t e)
    | Saved name => Some (set_name name e)
    | Edited w h keys =>
      match edit w h true (keys ++ [KEscape]) e with
      | Some (Left e _, _) => Some e
      | _ => None
      end
    end
  end.

(** The editor where a run of it is. *)
Definition current (r : editing) : editor := match r with Waiting e => e | Left e _ => e end.

(** ** The pixels *)

(** The same operations on a graphical console. *)
Definition on_console (o : eop) : gop :=
  match o with
  | EHide => GHide
  | EShow => GShow
  | EColor fg bg => GColor fg bg
  | EClear how => GClear how
  | ELocate x y => GLocate (Z.of_nat x) (Z.of_nat y)
  | EPrint t => GPrint t
  | EWrite t => GWrite t
  | ESyncNow => GSyncNow
  | ESync enabled => GSync enabled
  | EEnterAlt => GEnterAlt
  | ELeaveAlt => GLeaveAlt
  end.

(** A pixel of a character with its colors in a cell. *)
Definition glyph_pixel (v : setup) (z : sizes) (g : glyph) (c r : nat) (p : Z * Z) : list N :=
  if lit (glyphs v) (fst g) (fst p - Z.of_nat c * s_gw z)%Z (snd p - Z.of_nat r * s_gh z)%Z
  then encode v (rgb_of match fst (snd g) with Some i => i | None => def_fg v end)
  else encode v (rgb_of match snd (snd g) with Some i => i | None => def_bg v end).

(** The space is blank. *)
Definition blank_space (v : setup) : Prop := forall i j, lit (glyphs v) 32 i j = false.
