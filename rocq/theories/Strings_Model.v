(** String functions (std/src/strings.rs).  Texts are UTF-8 bytes; a callable is a function from
    its arguments, and an outer [None] is a panic.  [LCASE], [UCASE] and [parse_boolean] (Unicode
    case tables) and [f64] parsing and printing are not modelled. *)
From Verif Require Import Base Text_Model.
Local Open Scope N_scope.

(** The errors, with the number of the argument they point at. *)
Inductive fn_error :=
| FnNotOneChar (arg : nat) (s : list N)
| FnCodeNegative (arg : nat) (i : Z)
| FnCodeInvalid (arg : nat) (c : N)
| FnStartNotPositive (arg : nat)
| FnNegative (arg : nat)
| FnTooLong.

(** strings.rs 77-79. *)
Definition char_index_to_byte_index (s : list N) (char_index : nat) : nat :=
  match nth_error (char_indices s) char_index with
  | Some (i, _) => i
  | None => length s
  end.

(** strings.rs 82-84. *)
Definition byte_index_to_char_index (s : list N) (byte_index : nat) : option nat :=
  match slice s 0 byte_index with
  | Some p => Some (length (chars p))
  | None => None
  end.

(** strings.rs 87-89. *)
Definition char_len (s : list N) : nat := length (chars s).

(** strings.rs 92-96. *)
Definition slice_by_char_range (s : list N) (start stop : nat) : option (list N) :=
  let start := char_index_to_byte_index s start in
  let stop := char_index_to_byte_index s stop in
  slice s start stop.

(** Wraps the value of a slice as a successful return. *)
Definition ret_slice (r : option (list N)) : option (res fn_error (list N)) :=
  match r with Some s => Some (Ok s) | None => None end.

(** strings.rs 181-208: [ASC]. *)
Definition fn_asc (s : list N) : res fn_error Z :=
  match chars s with
  | [] => Err (FnNotOneChar 0 s)
  | ch :: rest =>
      match rest with
      | _ :: _ => Err (FnNotOneChar 0 s)
      | [] => Ok (Z.of_N ch)
      end
  end.

(** strings.rs 247-265: [CHR]. *)
Definition fn_chr (i : Z) : res fn_error (list N) :=
  if (i <? 0)%Z then Err (FnCodeNegative 0 i)
  else
    let code := Z.to_N i in
    if is_char code then Ok (enc1 code) else Err (FnCodeInvalid 0 code).

(** strings.rs 342-372: [INSTR]; the cast to [i32] wraps only past 2^31 characters and is left
    out. *)
Definition fn_instr (start : option Z) (s search : list N) : option (res fn_error Z) :=
  let start := match start with None => 1%Z | Some i => i end in
  if (start <=? 0)%Z then Some (Err (FnStartNotPositive 0))
  else
    let start := Z.to_nat (start - 1) in
    let slen := length (chars s) in
    if Nat.ltb slen start then Some (Ok 0%Z)
    else if match search with [] => true | _ :: _ => false end then Some (Ok (Z.of_nat (start + 1)))
    else
      let start_byte := char_index_to_byte_index s start in
      match slice s start_byte (length s) with
      | None => None
      | Some tail =>
          match find tail search with
          | Some offset =>
              let byte_index := (start_byte + offset)%nat in
              match byte_index_to_char_index s byte_index with
              | Some i => Some (Ok (Z.of_nat (i + 1)))
              | None => None
              end
          | None => Some (Ok 0%Z)
          end
      end.

(** strings.rs 461-472: [LEFT]. *)
Definition fn_left (s : list N) (n : Z) : option (res fn_error (list N)) :=
  if (n <? 0)%Z then Some (Err (FnNegative 1))
  else
    let n := Nat.min (char_len s) (Z.to_nat n) in
    ret_slice (slice_by_char_range s 0 n).

(** strings.rs 505-512: [LEN]. *)
Definition fn_len (s : list N) : res fn_error Z :=
  let n := Z.of_nat (char_len s) in
  if (n <=? i32_max)%Z then Ok n else Err FnTooLong.

(** strings.rs 628-656: [MID]. *)
Definition fn_mid (s : list N) (start : Z) (length_ : option Z) : option (res fn_error (list N)) :=
  if (start <? 0)%Z then Some (Err (FnNegative 1))
  else
    let slen := char_len s in
    let start := Nat.min slen (Z.to_nat start) in
    match length_ with
    | Some l =>
        if (l <? 0)%Z then Some (Err (FnNegative 2))
        else ret_slice (slice_by_char_range s start (Nat.min (start + Z.to_nat l) slen))
    | None => ret_slice (slice_by_char_range s start slen)
    end.

(** strings.rs 705-717: [RIGHT]. *)
Definition fn_right (s : list N) (n : Z) : option (res fn_error (list N)) :=
  if (n <? 0)%Z then Some (Err (FnNegative 1))
  else
    let slen := char_len s in
    let n := Nat.min slen (Z.to_nat n) in
    ret_slice (slice_by_char_range s (slen - n) slen).

(** strings.rs 791-800: [SPACE]. *)
Definition fn_space (n : Z) : res fn_error (list N) :=
  if (n <? 0)%Z then Err (FnNegative 0) else Ok (repeat 32 (Z.to_nat n)).

(** [char::is_whitespace]: the Unicode White_Space property. *)
Definition is_whitespace (c : N) : bool :=
  ((9 <=? c) && (c <=? 13)) || (c =? 32) || (c =? 133) || (c =? 160) || (c =? 5760) ||
  ((8192 <=? c) && (c <=? 8202)) || (c =? 8232) || (c =? 8233) || (c =? 8239) || (c =? 8287) ||
  (c =? 12288).

(** [str::trim_start] on characters. *)
Fixpoint trim_left (s : ustr) : ustr :=
  match s with
  | [] => []
  | c :: r => if is_whitespace c then trim_left r else s
  end.

(** strings.rs 545-550 ([LTRIM]), 750-755 ([RTRIM]), 902-907 ([TRIM]). *)
Definition fn_ltrim (s : list N) : list N := collect (trim_left (chars s)).
Definition fn_rtrim (s : list N) : list N := collect (rev (trim_left (rev (chars s)))).
Definition fn_trim (s : list N) : list N :=
  collect (rev (trim_left (rev (trim_left (chars s))))).

(** [u8::is_ascii_digit]. *)
Definition is_digit (c : N) : bool := (48 <=? c) && (c <=? 57).

Fixpoint digit_run (l : list N) : nat :=
  match l with
  | [] => 0
  | c :: r => if is_digit c then S (digit_run r) else 0
  end.

(** The [while] loops of [parse_numeric_prefix]: advances [i] over digits. *)
Definition skip_digits (b : list N) (i : nat) : nat := i + digit_run (skipn i b).

Inductive numprefix := NpZero | NpParse (literal : list N) | NpPanic.

(** strings.rs 99-143: [VAL] returns 0 or parses the returned literal as a double. *)
Definition parse_numeric_prefix (s : list N) : numprefix :=
  let s := fn_ltrim s in
  let i := match nth_error s 0 with
           | Some c => if (c =? 43) || (c =? 45) then 1%nat else 0%nat
           | None => 0%nat
           end in
  let int_start := i in
  let i := skip_digits s i in
  let have_int := Nat.ltb int_start i in
  let step2 :=
    if match nth_error s i with Some c => c =? 46 | None => false end then
      let i := S i in
      let frac_start := i in
      let i := skip_digits s i in
      if (negb have_int && Nat.eqb i frac_start)%bool then None else Some i
    else if negb have_int then None else Some i in
  match step2 with
  | None => NpZero
  | Some i =>
      let stop :=
        if match nth_error s i with Some c => (c =? 101) || (c =? 69) | None => false end then
          let j := S i in
          let j := match nth_error s j with
                   | Some c => if (c =? 43) || (c =? 45) then S j else j
                   | None => j
                   end in
          let exp_start := j in
          let j := skip_digits s j in
          if Nat.ltb exp_start j then j else i
        else i in
      match slice s 0 stop with
      | Some p => NpParse p
      | None => NpPanic
      end
  end.

(** [i32::to_string]: decimal digits, most significant first. *)
Fixpoint decimal (fuel : nat) (n : N) : list N :=
  match fuel with
  | O => []
  | S f => if n <? 10 then [48 + n] else decimal f (n / 10) ++ [48 + n mod 10]
  end.
Definition to_string (i : Z) : list N :=
  let n := Z.abs_N i in
  let d := decimal (S (N.to_nat (N.log2 n))) n in
  if (i <? 0)%Z then 45 :: d else d.

(** strings.rs 64-66. *)
Definition format_integer (i : Z) : list N :=
  if (i <? 0)%Z then to_string i else 32 :: to_string i.

(** [i32::from_str]: the digits are accumulated with checked operations. *)
Fixpoint parse_digits (negative : bool) (acc : Z) (l : list N) : option Z :=
  match l with
  | [] => Some acc
  | c :: r =>
      if is_digit c then
        let m := (acc * 10)%Z in
        if is_i32 m then
          let d := Z.of_N (c - 48) in
          let a := if negative then (m - d)%Z else (m + d)%Z in
          if is_i32 a then parse_digits negative a r else None
        else None
      else None
  end.

(** strings.rs 69-74. *)
Definition parse_integer (s : list N) : option Z :=
  match s with
  | [] => None
  | c :: r =>
      if (c =? 43) || (c =? 45) then
        match r with [] => None | _ :: _ => parse_digits (c =? 45) 0 r end
      else parse_digits false 0 s
  end.

(** strings.rs 34-36. *)
Definition format_boolean (b : bool) : list N := if b then [84; 82; 85; 69] else [70; 65; 76; 83; 69].
