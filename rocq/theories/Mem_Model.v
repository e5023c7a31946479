(** Runtime memory: arrays, constants, the heap and tagged data pointers.
    Models core/src/mem.rs 24-339 and core/src/num.rs 22-65. *)
From Verif Require Import Base Bytecode_Model.
Local Open Scope N_scope.

(** Rust [as i32] on a [u64]: keep the low 32 bits and read them as two's complement. *)
Definition as_i32 (v : N) : Z :=
  let w := v mod 2 ^ 32 in
  if w <? 2 ^ 31 then Z.of_N w else (Z.of_N w - 2 ^ 32)%Z.

(** Rust [as u64] on an [i32]: sign extension. *)
Definition i32_as_u64 (z : Z) : N := Z.to_N (z mod 2 ^ 64)%Z.

(** num.rs 32-46: [U24::try_from]. *)
Definition u24_try_from (v : N) : option N := if 2 ^ 24 <=? v then None else Some v.

(** num.rs 62-65: [U24::MAX]; it is one more than the largest value [try_from] accepts. *)
Definition u24_max : N := 2 ^ 24.

(** mem.rs 30-34, 47-51: why a subscript was rejected (in place of the formatted message). *)
Inductive sub_error :=
| SubNegative (s : Z)
| SubExceeds (s d : N).

(** mem.rs 36-56: [ArrayData::flat_index].  [usize] arithmetic is unbounded here: the product
    of the dimensions was already computed without overflow when the array was created. *)
Fixpoint flat_index_loop (offset multiplier : N) (dims : list N) (subs : list Z)
  : res sub_error N :=
  match subs, dims with
  | s :: subs', d :: dims' =>
      if (s <? 0)%Z then Err (SubNegative s)
      else
        let s := Z.to_N s in
        if d <=? s then Err (SubExceeds s d)
        else flat_index_loop (offset + s * multiplier) (multiplier * d) dims' subs'
  | _, _ => Ok offset
  end.
Definition flat_index (dims : list N) (subs : list Z) : res sub_error N :=
  flat_index_loop 0 1 dims subs.

(** mem.rs 65-77: [ConstantDatum]; a double is its 64-bit pattern. *)
Inductive cdatum :=
| CBool (b : bool)
| CDouble (bits : N)
| CInt (z : Z)
| CText (s : ustr).

(** mem.rs 79-89: equality; doubles compare by bit pattern. *)
Definition cdatum_eqb (a b : cdatum) : bool :=
  match a, b with
  | CBool a, CBool b => Bool.eqb a b
  | CDouble a, CDouble b => a =? b
  | CInt a, CInt b => (a =? b)%Z
  | CText a, CText b => ustr_eqb a b
  | _, _ => false
  end.

(** mem.rs 137-144. *)
Definition cdatum_etype (c : cdatum) : etype :=
  match c with
  | CBool _ => TBoolean | CDouble _ => TDouble | CInt _ => TInteger | CText _ => TText
  end.

(** mem.rs 26-32, 208-214: [HeapDatum], with [ArrayData] inlined. *)
Inductive hdatum :=
| HArray (dims values : list N)
| HText (s : ustr).

(** mem.rs 222-225. *)
Record heap := mkHeap { h_data : list hdatum; h_max : N }.

(** mem.rs 229-231, 234-236. *)
Definition heap_new (max : N) : heap := mkHeap [HText []] max.
Definition heap_clear (h : heap) : heap := heap_new (h_max h).

(** mem.rs 239-241. *)
Definition heap_len (h : heap) : N := N.of_nat (length (h_data h)).

(** mem.rs 304-308: [DatumPtr::for_heap]. *)
Definition ptr_for_heap (index : N) : N :=
  let raw := as_i32 index in
  let raw := (- raw - 1)%Z in
  i32_as_u64 raw.

(** mem.rs 244-247. *)
Definition empty_text_ptr (h : heap) : N := ptr_for_heap 0.

(** mem.rs 250-261: [Heap::push]; [None] is [HeapOverflowError]. *)
Definition heap_push (h : heap) (d : hdatum) : option (heap * N) :=
  match d with
  | HText [] => Some (h, empty_text_ptr h)
  | _ =>
    match u24_try_from (heap_len h) with
    | None => None
    | Some index =>
        if h_max h <=? heap_len h then None
        else Some (mkHeap (h_data h ++ [d]) (h_max h), ptr_for_heap index)
    end
  end.

(** mem.rs 264-272: [Heap::get]; [None] is the out of bounds panic. *)
Definition heap_get (h : heap) (i : N) : option hdatum := nth_error (h_data h) (N.to_nat i).

(** [*heap.get_mut(i) = d]. *)
Definition heap_set (h : heap) (i : N) (d : hdatum) : heap :=
  mkHeap (upd (h_data h) (N.to_nat i) d) (h_max h).

(** mem.rs 283-289. *)
Inductive datum_ptr := PConstant (i : N) | PHeap (i : N).

(** mem.rs 291-300: [DatumPtr::from(u64)]; [None] is the [unwrap] panic. *)
Definition ptr_from (v : N) : option datum_ptr :=
  let s := as_i32 v in
  if (s <? 0)%Z then
    match u24_try_from (Z.to_N (- s - 1)) with Some i => Some (PHeap i) | None => None end
  else
    match u24_try_from (Z.to_N s) with Some i => Some (PConstant i) | None => None end.

(** mem.rs 313-328: [resolve_string]; [None] is a panic. *)
Definition resolve_string (p : datum_ptr) (constants : list cdatum) (h : heap) : option ustr :=
  match p with
  | PConstant i =>
      match nth_error constants (N.to_nat i) with Some (CText s) => Some s | _ => None end
  | PHeap i => match heap_get h i with Some (HText s) => Some s | _ => None end
  end.

(** mem.rs 333-338: [heap_index]; [None] is a panic. *)
Definition heap_index (p : datum_ptr) : option N :=
  match p with PHeap i => Some i | PConstant _ => None end.

(** Following a raw register value as a string pointer ([DatumPtr::from] then
    [resolve_string]), as done by vm/context.rs 272-279 [deref_string]. *)
Definition deref_text (v : N) (constants : list cdatum) (h : heap) : option ustr :=
  match ptr_from v with Some p => resolve_string p constants h | None => None end.

(** mem.rs 185-200: [ConstantDatum::from_raw]; [None] is a panic. *)
Definition from_raw (v : N) (t : etype) (constants : list cdatum) (h : heap) : option cdatum :=
  match t with
  | TBoolean => Some (CBool (negb (v =? 0)))
  | TDouble => Some (CDouble v)
  | TInteger => Some (CInt (as_i32 v))
  | TText => match deref_text v constants h with Some s => Some (CText s) | None => None end
  end.
