(** LBOUND and UBOUND (std/src/arrays.rs).  [dims] are the sizes of the array's dimensions, as
    [array_dimensions] returns them; an outer [None] is a panic. *)
From Verif Require Import Base Bytecode_Model Mem_Model.

Inductive bound_error :=
| BnNegative (i : Z)
| BnTooMany (ndims : nat) (i : nat)
| BnNeedsDimension.

(** arrays.rs 33-67. *)
Definition parse_bound_args (dims : list N) (dim : option Z) : res bound_error (list N * nat) :=
  match dim with
  | Some i =>
      if (i <? 0)%Z then Err (BnNegative i)
      else
        let i := Z.to_nat i in
        if Nat.ltb (length dims) i then Err (BnTooMany (length dims) i) else Ok (dims, i)
  | None => if Nat.ltb 1 (length dims) then Err BnNeedsDimension else Ok (dims, 1)
  end.

(** arrays.rs 131-134. *)
Definition lbound (dims : list N) (dim : option Z) : option (res bound_error Z) :=
  match parse_bound_args dims dim with
  | Ok _ => Some (Ok 0%Z)
  | Err e => Some (Err e)
  end.

(** arrays.rs 199-202; [dim - 1] below zero and an index out of range are panics. *)
Definition ubound (dims : list N) (dim : option Z) : option (res bound_error Z) :=
  match parse_bound_args dims dim with
  | Ok (dimensions, dim) =>
      match dim with
      | O => None
      | S k => match nth_error dimensions k with
               | Some d => if (d =? 0)%N then None else Some (Ok (as_i32 (d - 1)))
               | None => None
               end
      end
  | Err e => Some (Err e)
  end.
