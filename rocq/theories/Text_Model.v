(** Rust texts as bytes: UTF-8 encoding, iteration over characters, byte slices and search.
    These are the library operations ([str::chars], [char_indices], slicing, [find]) that the
    code calls; they are modelled so that code which mixes byte and character positions can be
    reasoned about. *)
From Verif Require Import Base.
Local Open Scope N_scope.

(** A Unicode scalar value (Rust [char]). *)
Definition is_char (c : N) : bool := (c <? 55296) || ((57344 <=? c) && (c <? 1114112)).

(** [char::encode_utf8]. *)
Definition enc1 (c : N) : list N :=
  if c <? 128 then [c]
  else if c <? 2048 then [192 + c / 64; 128 + c mod 64]
  else if c <? 65536 then [224 + c / 4096; 128 + c / 64 mod 64; 128 + c mod 64]
  else [240 + c / 262144; 128 + c / 4096 mod 64; 128 + c / 64 mod 64; 128 + c mod 64].

(** [String::from_iter] over characters. *)
Definition collect (s : ustr) : list N := flat_map enc1 s.

(** [str::chars]: decodes one character at a time, as [core::str::next_code_point].  A truncated
    character cannot occur in a [str]; the model stops there. *)
Fixpoint chars (b : list N) : ustr :=
  match b with
  | [] => []
  | b0 :: r =>
      if b0 <? 128 then b0 :: chars r
      else match r with
      | [] => []
      | b1 :: r1 =>
          if b0 <? 224 then ((b0 mod 32) * 64 + b1 mod 64) :: chars r1
          else match r1 with
          | [] => []
          | b2 :: r2 =>
              if b0 <? 240 then ((b0 mod 16) * 4096 + (b1 mod 64) * 64 + b2 mod 64) :: chars r2
              else match r2 with
              | [] => []
              | b3 :: r3 =>
                  ((b0 mod 8) * 262144 + (b1 mod 64) * 4096 + (b2 mod 64) * 64 + b3 mod 64) :: chars r3
              end
          end
      end
  end.

(** [str::char_indices]: each character with the byte position where it starts. *)
Fixpoint char_indices_from (pos : nat) (s : ustr) : list (nat * N) :=
  match s with
  | [] => []
  | c :: r => (pos, c) :: char_indices_from (pos + utf8_len1 c) r
  end.
Definition char_indices (b : list N) : list (nat * N) := char_indices_from 0 (chars b).

(** [str::is_char_boundary]. *)
Definition is_char_boundary (b : list N) (i : nat) : bool :=
  match nth_error b i with
  | Some x => negb ((128 <=? x) && (x <? 192))
  | None => Nat.eqb i (length b)
  end.

(** [&s\[start..end\]]; [None] is the panic. *)
Definition slice (b : list N) (start stop : nat) : option (list N) :=
  if (Nat.leb start stop && is_char_boundary b start && is_char_boundary b stop)%bool
  then Some (firstn (stop - start) (skipn start b))
  else None.

(** Whether [n] is a prefix of [b]. *)
Fixpoint starts_with (b n : list N) {struct n} : bool :=
  match n, b with
  | [], _ => true
  | x :: n', y :: b' => (x =? y) && starts_with b' n'
  | _ :: _, [] => false
  end.

(** [str::find] of a text: byte position of the first match. *)
Fixpoint find (b n : list N) : option nat :=
  if starts_with b n then Some 0%nat
  else match b with
  | [] => None
  | _ :: b' => match find b' n with Some i => Some (S i) | None => None end
  end.
