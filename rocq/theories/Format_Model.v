(** Paragraph refilling (std/src/console/format.rs) and the pager (std/src/console/pager.rs).
    Texts are lists of characters; their byte length is [utf8_len]. *)
From Verif Require Import Base Text_Model Strings_Model.

(** [str::split_whitespace]; [cur] holds the reversed characters of the current word. *)
Fixpoint split_ws (cur : ustr) (s : ustr) : list ustr :=
  match s with
  | [] => match cur with [] => [] | _ :: _ => [rev cur] end
  | c :: r =>
      if is_whitespace c then
        match cur with [] => split_ws [] r | _ :: _ => rev cur :: split_ws [] r end
      else split_ws (c :: cur) r
  end.
Definition split_whitespace (s : ustr) : list ustr := split_ws [] s.

(** [str::ends_with('.')]. *)
Definition ends_with_period (s : ustr) : bool :=
  match rev s with c :: _ => (c =? 46)%N | [] => false end.

(** format.rs 36-44: spaces to inject before [word]; [None] is the [expect]. *)
Definition refill_spaces (line word : ustr) : option nat :=
  if ends_with_period line then
    match word with
    | [] => None
    | first :: _ => Some (if (first =? upper1 first)%N then 2 else 1)
    end
  else Some 1.

(** format.rs 33-59: the loop over the words, with the finished lines (in order) and the
    current one. *)
Fixpoint refill_loop (width : nat) (lines : list ustr) (line : ustr) (words : list ustr)
  : option (list ustr) :=
  match words with
  | [] => Some (match line with [] => lines | _ :: _ => lines ++ [line] end)
  | word :: rest =>
      match line with
      | [] => refill_loop width lines (line ++ word) rest
      | _ :: _ =>
          match refill_spaces line word with
          | None => None
          | Some spaces =>
              if Nat.leb width (utf8_len line + utf8_len word + spaces)
              then refill_loop width (lines ++ [line]) ([] ++ word) rest
              else refill_loop width lines (line ++ repeat 32%N spaces ++ word) rest
          end
      end
  end.

(** format.rs 26-62. *)
Definition refill (paragraph : ustr) (width : nat) : option (list ustr) :=
  match paragraph with
  | [] => Some [[]]
  | _ :: _ => refill_loop width [] [] (split_whitespace paragraph)
  end.

(** format.rs 81-90. *)
Fixpoint extra_indent (paragraph : ustr) : ustr :=
  match paragraph with
  | c :: r => if is_whitespace c then 32%N :: extra_indent r else []
  | [] => []
  end.

(** format.rs 65-103; [None] is the panic of the width computation when built with overflow
    checks. *)
Fixpoint refill_paragraphs (first : bool) (indent : ustr) (width : nat) (ps : list ustr)
  : option (list ustr) :=
  match ps with
  | [] => Some []
  | p :: rest =>
      let extra := extra_indent p in
      if Nat.ltb width (4 + utf8_len indent + utf8_len extra) then None
      else
        match refill p (width - 4 - utf8_len indent - utf8_len extra),
              refill_paragraphs false indent width rest with
        | Some lines, Some more =>
            Some ((if first then [] else [[]]) ++
                  map (fun line => match line with
                                   | [] => []
                                   | _ :: _ => indent ++ extra ++ line
                                   end) lines ++ more)
        | _, _ => None
        end
  end.
Definition refill_many (ps : list ustr) (indent : ustr) (width : nat) : option (list ustr) :=
  refill_paragraphs true indent width ps.

(** * The pager *)

(** What a user sees: printed lines, text without a line break, and the prompt, which waits for
    a key. *)
Inductive pager_event := PLine (s : ustr) | PText (s : ustr) | PPrompt (s : ustr).

(** pager.rs 31-49 without the console: its size, the prompt and the counters. *)
Record pager := mkPager { pg_x : nat; pg_y : nat; pg_more : ustr; pg_columns : nat; pg_lines : nat }.

Inductive pager_result := PgOk (p : pager) (keys : list bool) | PgInterrupted | PgPanic | PgNoKey.

(** pager.rs 53-60; [is_narrow] is [size.x < 50] (console/mod.rs 495-500). *)
Definition pager_new (x y : nat) (narrow wide : ustr) : pager :=
  mkPager x y (if Nat.ltb x 50 then narrow else wide) 0 0.

(** pager.rs 83-106 on an interactive or non-interactive console; [keys] are the answers to the
    prompts, [true] for Escape and Interrupt.  [PgPanic]: division by a zero width, or [y - 1]
    below zero. *)
Definition pager_print (interactive : bool) (p : pager) (text : ustr) (keys : list bool)
  : list pager_event * pager_result :=
  if interactive then
    if Nat.eqb (pg_x p) 0 then ([PLine text], PgPanic)
    else
      let columns := pg_columns p + utf8_len text in
      let lines := pg_lines p + (columns / pg_x p + 1) in
      if Nat.eqb (pg_y p) 0 then ([PLine text], PgPanic)
      else if Nat.leb (pg_y p - 1) lines then
        match keys with
        | [] => ([PLine text; PPrompt (pg_more p)], PgNoKey)
        | true :: _ => ([PLine text; PPrompt (pg_more p)], PgInterrupted)
        | false :: keys' =>
            ([PLine text; PPrompt (pg_more p)],
             PgOk (mkPager (pg_x p) (pg_y p) (pg_more p) 0 0) keys')
        end
      else ([PLine text], PgOk (mkPager (pg_x p) (pg_y p) (pg_more p) 0 lines) keys)
  else ([PLine text], PgOk p keys).

(** pager.rs 110-116. *)
Definition pager_write (interactive : bool) (p : pager) (text : ustr) : list pager_event * pager :=
  ([PText text],
   if interactive then mkPager (pg_x p) (pg_y p) (pg_more p) (pg_columns p + utf8_len text) (pg_lines p)
   else p).
