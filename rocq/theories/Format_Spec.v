(** What refilled paragraphs and paged output should look like. *)
From Verif Require Import Base Text_Model Strings_Model Format_Model.

Definition no_space (w : ustr) : Prop := w <> [] /\ Forall (fun c => is_whitespace c = false) w.

(** The words of a text: its maximal runs of characters that are not white space. *)
Inductive words_of : ustr -> list ustr -> Prop :=
| words_none : words_of [] []
| words_space c s ws : is_whitespace c = true -> words_of s ws -> words_of (c :: s) ws
| words_word w s ws : no_space w -> (forall c r, s = c :: r -> is_whitespace c = true) ->
    words_of s ws -> words_of (w ++ s) (w :: ws).

(** Two spaces between sentences, one elsewhere: a sentence ends with a period and the next
    does not start with a small letter. *)
Definition gap (w next : ustr) : nat :=
  match rev w, next with
  | z :: _, c :: _ => if ((z =? 46) && negb ((97 <=? c) && (c <=? 122)))%N then 2 else 1
  | _, _ => 1
  end.

(** Words set on one line. *)
Fixpoint set_line (ws : list ustr) : ustr :=
  match ws with
  | [] => []
  | [w] => w
  | w :: ((next :: _) as rest) => w ++ repeat 32%N (gap w next) ++ set_line rest
  end.

(** The words are set in lines, in order; a line is within the width unless it is one word; and
    no line could have taken the first word of the next. *)
Definition filled (width : nat) (ws : list ustr) (lines : list ustr) : Prop :=
  exists groups, concat groups = ws /\ lines = map set_line groups /\
    Forall (fun g => g <> []) groups /\
    Forall (fun g => length g = 1 \/ utf8_len (set_line g) < width) groups /\
    (forall i g h w, nth_error groups i = Some g -> nth_error groups (S i) = Some (w :: h) ->
       width <= utf8_len (set_line (g ++ [w]))).

(** * Paging *)

Inductive pager_op := OpPrint (s : ustr) | OpWrite (s : ustr).

Definition op_event (o : pager_op) : pager_event :=
  match o with OpPrint s => PLine s | OpWrite s => PText s end.

(** Output one operation after another until one fails. *)
Fixpoint pager_run (interactive : bool) (p : pager) (ops : list pager_op) (keys : list bool)
  : list pager_event * pager_result :=
  match ops with
  | [] => ([], PgOk p keys)
  | OpPrint s :: rest =>
      match pager_print interactive p s keys with
      | (ev, PgOk p' keys') => let (ev', r) := pager_run interactive p' rest keys' in (ev ++ ev', r)
      | (ev, r) => (ev, r)
      end
  | OpWrite s :: rest =>
      let (ev, p') := pager_write interactive p s in
      let (ev', r) := pager_run interactive p' rest keys in (ev ++ ev', r)
  end.

(** Rows of a [width] columns wide screen used since the last prompt, and the cells used in the
    current row, measuring texts with [len]. *)
Fixpoint rows_used (len : ustr -> nat) (width rows cells : nat) (ev : list pager_event) : nat :=
  match ev with
  | [] => rows
  | PLine s :: r => rows_used len width (rows + ((cells + len s) / width + 1)) 0 r
  | PText s :: r => rows_used len width rows (cells + len s) r
  | PPrompt _ :: r => rows_used len width 0 0 r
  end.
Definition rows_since_prompt (len : ustr -> nat) (width : nat) (ev : list pager_event) : nat :=
  rows_used len width 0 0 ev.

Definition is_prompt (e : pager_event) : bool := match e with PPrompt _ => true | _ => false end.
