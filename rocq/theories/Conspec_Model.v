(** Console specifications: std/src/console/spec.rs. *)
From Coq Require Import String.
From Verif Require Import Base Lex_Model Storage_Model.
Local Open Scope string_scope.
Local Open Scope list_scope.
Local Open Scope N_scope.

(** [str::split_once]. *)
Fixpoint split_once (c : N) (s : ustr) : option (ustr * ustr) :=
  match s with
  | [] => None
  | x :: r => if x =? c then Some ([], r) else match split_once c r with Some (a, b) => Some (x :: a, b) | None => None end
  end.
(** [str::strip_suffix]. *)
Fixpoint strip_suffix (suffix s : ustr) : option ustr :=
  if ustr_eqb s suffix then Some []
  else match s with [] => None | x :: r => match strip_suffix suffix r with Some p => Some (x :: p) | None => None end end.
(** [Vec<&str>::join]. *)
Fixpoint join (sep : ustr) (l : list ustr) : ustr :=
  match l with [] => [] | [x] => x | x :: r => x ++ sep ++ join sep r end.

(** The loop of the standard library's [from_str] for unsigned integers up to [limit], with the
    text of its errors. *)
Fixpoint uint_digits (limit acc : N) (s : ustr) : res ustr N :=
  match s with
  | [] => Ok acc
  | c :: r =>
      match to_digit c 10 with
      | None => Err (u "invalid digit found in string")
      | Some d =>
          if acc * 10 <=? limit then
            if acc * 10 + d <=? limit then uint_digits limit (acc * 10 + d) r else Err (u "number too large to fit in target type")
          else Err (u "number too large to fit in target type")
      end
  end.
(** [u32::from_str] and [u8::from_str]: a plus is allowed before the digits.  A minus is not a
    digit. *)
Definition uint_from_str (limit : N) (s : ustr) : res ustr N :=
  match s with
  | [] => Err (u "cannot parse integer from empty string")
  | c :: r =>
      if c =? 43 then match r with [] => Err (u "invalid digit found in string") | _ :: _ => uint_digits limit 0 r end
      else uint_digits limit 0 s
  end.
(** [NonZeroU32::from_str]. *)
Definition nonzero_from_str (s : ustr) : res ustr N :=
  match uint_from_str 4294967295 s with
  | Ok v => if v =? 0 then Err (u "number would be zero for non-zero type") else Ok v
  | Err e => Err e
  end.

(** spec.rs 45-56. *)
Inductive resolution := FullScreenDesktop | FullScreen (w h : N) | Windowed (w h : N).

(** spec.rs 59-87. *)
Definition parse_resolution (text : ustr) : res ustr resolution :=
  if ustr_eqb text (u "fs") then Ok FullScreenDesktop
  else
    let '(dimensions, fullscreen) := match strip_suffix (u "fs") text with Some p => (p, true) | None => (text, false) end in
    match split_once 120 dimensions with
    | Some (width, height) =>
        match nonzero_from_str width with
        | Err e => Err (u "Invalid width " ++ width ++ u " in resolution " ++ text ++ u ": " ++ e)
        | Ok w =>
            match nonzero_from_str height with
            | Err e => Err (u "Invalid height " ++ height ++ u " in resolution " ++ text ++ u ": " ++ e)
            | Ok h => Ok (if fullscreen then FullScreen w h else Windowed w h)
            end
        end
    | None => Err (u "Invalid resolution " ++ text ++ u ": must be of the form [WIDTHxHEIGHT][fs]")
    end.

(** spec.rs 106-117. *)
Record cspec := mkCspec { cs_driver : ustr; cs_flags : list ustr; cs_keyed : list (ustr * ustr) }.

(** spec.rs 130-146: one round of the loop. *)
Definition add_pair (fk : list ustr * list (ustr * ustr)) (pair : ustr) : list ustr * list (ustr * ustr) :=
  let '(flags, keyed) := fk in
  match pair with
  | [] => (flags, keyed)
  | _ :: _ =>
      match split_once 61 pair with
      | None => (hs_insert pair flags, keyed)
      | Some (k, v) => (flags, hm_insert k v keyed)
      end
  end.
(** spec.rs 124-149; [None] is the panic of the assertion. *)
Definition cspec_init (s : ustr) : option cspec :=
  match s with
  | [] => None
  | _ :: _ =>
      let '(driver, rest) := match split_once 58 s with Some p => p | None => (s, []) end in
      let '(flags, keyed) := fold_left add_pair (split_on 44 rest) ([], []) in
      Some (mkCspec driver flags keyed)
  end.

(** spec.rs 154-156. *)
Definition take_flag (f : ustr) (c : cspec) : bool * cspec :=
  (existsb (ustr_eqb f) (cs_flags c), mkCspec (cs_driver c) (hs_remove f (cs_flags c)) (cs_keyed c)).
(** spec.rs 160-162. *)
Definition take_keyed_flag_str (k : ustr) (c : cspec) : option ustr * cspec :=
  (hm_get k (cs_keyed c), mkCspec (cs_driver c) (cs_flags c) (hm_remove k (cs_keyed c))).
(** spec.rs 168-180, with [V::from_str]. *)
Definition take_keyed_flag {V} (from_str : ustr -> res ustr V) (k : ustr) (c : cspec) : res ustr (option V) * cspec :=
  let '(o, c) := take_keyed_flag_str k c in
  (match o with
   | Some v => match from_str v with Ok v => Ok (Some v) | Err e => Err (u "Invalid console flag " ++ k ++ u ": " ++ e) end
   | None => Ok None
   end, c).
(** spec.rs 183-198. *)
Definition finish (c : cspec) : res ustr unit :=
  match cs_flags c, cs_keyed c with
  | [], [] => Ok tt
  | _, _ => Err (u "Console driver " ++ cs_driver c ++ u " does not recognize flags: " ++ join (u ", ") (ustr_sort (cs_flags c ++ map fst (cs_keyed c))))
  end.
