(** What the property line of a script is to say. *)
From Coq Require Import String.
From Verif Require Import Base.
Local Open Scope string_scope.
Local Open Scope list_scope.
Local Open Scope nat_scope.

(** The first line, without its terminator, and what is after it. *)
Inductive line_of : list N -> list N -> list N -> Prop :=
| Line_crlf l rest : ~ In 10%N l -> line_of (l ++ [13; 10]%N ++ rest) l rest
| Line_lf l rest : ~ In 10%N l -> (forall l', l <> l' ++ [13%N]) -> line_of (l ++ [10%N] ++ rest) l rest
| Line_last l : l <> [] -> ~ In 10%N l -> line_of l l [].
(** The second line of a script whose first line says what runs it. *)
Definition second_line (s l : list N) : Prop := exists p rest rest', line_of s (u "#!" ++ p) rest /\ line_of rest l rest'.
(** Comments, with [REM] in any case. *)
Definition comment (l p : list N) : Prop := l = u "' " ++ p \/ exists r, ascii_lower r = u "rem " /\ l = r ++ p.
Inductive told (s : list N) : res (list N) (option (list N)) -> Prop :=
| Told_spec l spec : second_line s l -> comment l (u "endbasic cli: console=" ++ spec) -> spec <> [] -> told s (Ok (Some spec))
| Told_missing l : second_line s l -> comment l (u "endbasic cli: console=") ->
    told s (Err (u "Invalid EndBASIC propline: missing console specification"))
| Told_invalid l x : second_line s l -> comment l (u "endbasic cli: " ++ x) -> (forall spec, x <> u "console=" ++ spec) ->
    told s (Err (u "Invalid EndBASIC propline: " ++ l))
| Told_nothing : (forall l x, second_line s l -> ~ comment l (u "endbasic cli: " ++ x)) -> told s (Ok None).

(** The fifth byte of the line is inside a character, and the line is not a comment with an
    apostrophe. *)
Definition splits_char (l : list N) : Prop :=
  (forall p, l <> u "' " ++ p) /\ exists a x r, l = a ++ x :: r /\ length a = 4 /\ (128 <= x < 192)%N.
