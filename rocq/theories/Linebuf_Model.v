(** The line buffer (std/src/console/linebuffer.rs): a [String], that is UTF-8 bytes. *)
From Verif Require Import Base Text_Model.

(** linebuffer.rs 31-33. *)
Definition linebuf := list N.

(** linebuffer.rs 37-39; the capacity is only a hint. *)
Definition lb_with_capacity : linebuf := [].
(** linebuffer.rs 137-152. *)
Definition lb_from (s : list N) : linebuf := s.
(** linebuffer.rs 42-44. *)
Definition lb_len (b : linebuf) : nat := length (chars b).
(** linebuffer.rs 47-49. *)
Definition lb_chars (b : linebuf) : ustr := chars b.
(** linebuffer.rs 53-55. *)
Definition lb_end (b : linebuf) (start_pos : nat) : list N := collect (skipn start_pos (chars b)).
(** linebuffer.rs 61-63. *)
Definition lb_start (b : linebuf) (end_pos : nat) : list N := collect (firstn end_pos (chars b)).
(** linebuffer.rs 66-69; the subtraction on [nat] saturates. *)
Definition lb_range (b : linebuf) (start_pos end_pos : nat) : list N :=
  let count := end_pos - start_pos in
  collect (firstn count (skipn start_pos (chars b))).
(** linebuffer.rs 72-74. *)
Definition lb_is_empty (b : linebuf) : bool := match b with [] => true | _ :: _ => false end.
(** linebuffer.rs 79-81. *)
Definition lb_as_bytes (b : linebuf) : list N := b.
(** linebuffer.rs 86-88; [pos + 1] does not wrap below [usize::MAX]. *)
Definition lb_remove (b : linebuf) (pos : nat) : linebuf :=
  collect (firstn pos (chars b) ++ skipn (pos + 1) (chars b)).
(** linebuffer.rs 94-102. *)
Definition lb_insert (b : linebuf) (pos : nat) (ch : N) : linebuf :=
  collect (firstn pos (chars b) ++ [ch] ++ skipn pos (chars b)).
(** linebuffer.rs 105-107. *)
Definition lb_into_inner (b : linebuf) : list N := b.
(** linebuffer.rs 112-120. *)
Definition lb_insert_str (b : linebuf) (pos : nat) (s : list N) : linebuf :=
  collect (firstn pos (chars b) ++ chars s ++ skipn pos (chars b)).
(** linebuffer.rs 123-125. *)
Definition lb_push_str (b s : linebuf) : linebuf := b ++ s.
(** linebuffer.rs 130-134: the remaining buffer and the returned part. *)
Definition lb_split_off (b : linebuf) (at_ : nat) : linebuf * linebuf :=
  (collect (firstn at_ (chars b)), collect (skipn at_ (chars b))).
