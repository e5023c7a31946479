(** Model of core/src/bytecode.rs (and the enums of core/src/ast.rs it encodes). *)
From Verif Require Import Base.
Local Open Scope N_scope.

(** core/src/ast.rs 200-211: [enum ExprType], discriminants in order. *)
Inductive etype := TBoolean | TDouble | TInteger | TText.

Definition etype_code (t : etype) : N :=
  match t with TBoolean => 0 | TDouble => 1 | TInteger => 2 | TText => 3 end.

(** core/src/ast.rs 214-226: [TryFrom<u8> for ExprType]; also the range assertion plus
    transmute of bytecode.rs 299-307 ([None] is the panic there). *)
Definition etype_of (n : N) : option etype :=
  match n with 0 => Some TBoolean | 1 => Some TDouble | 2 => Some TInteger | 3 => Some TText
             | _ => None end.

(** core/src/ast.rs 309-335: [enum ArgSep] and its [TryFrom<u8>]. *)
Inductive argsep := SepEnd | SepShort | SepLong | SepAs.

Definition argsep_code (s : argsep) : N :=
  match s with SepEnd => 0 | SepShort => 1 | SepLong => 2 | SepAs => 3 end.

Definition argsep_of (n : N) : option argsep :=
  match n with 0 => Some SepEnd | 1 => Some SepShort | 2 => Some SepLong | 3 => Some SepAs
             | _ => None end.

(** bytecode.rs 76-98: [ExitCode::try_new] and [to_i32]. *)
Definition exit_code_try_new (v : Z) : option N :=
  if ((0 <=? v) && (v <? 128))%Z then Some (Z.to_N v) else None.
Definition exit_code_to_i32 (c : N) : Z := Z.of_N c.
Definition exit_code_is_success (c : N) : bool := c =? 0.

(** bytecode.rs 170-197: [Register].  A register is its [u8] number. *)
Definition max_register : N := 255.
Definition max_global : N := 64.

Definition register_global (r : N) : option N := if r <? max_global then Some r else None.
(** [reg.checked_add(64)] on [u8]. *)
Definition register_local (r : N) : option N :=
  if r + max_global <=? max_register then Some (r + max_global) else None.
Definition register_to_parts (r : N) : bool * N :=
  if r <? max_global then (true, r) else (false, r - max_global).

(** bytecode.rs 207-250: [TaggedRegisterRef].  [None] is the "Cannot support that many
    registers" panic and, in [parse], the invalid tag assertion. *)
Definition tagged_ref_new (reg fp : N) (t : etype) : option N :=
  let '(is_global, index) := register_to_parts reg in
  let index := if is_global then index else index + fp in
  if index <? 2^32 then Some (N.lor (N.shiftl (etype_code t) 32) index) else None.
Definition tagged_ref_parse (v : N) : option (N * etype) :=
  match etype_of (N.land (N.shiftr v 32) 0xff) with
  | Some t => Some (N.land v 0xffffffff, t)
  | None => None
  end.

(** bytecode.rs 257-281: [PackedArrayType]. *)
Definition packed_new (t : etype) (ndims : N) : option N :=
  if 15 <? ndims then None else Some (N.lor (N.shiftl (etype_code t) 4) (N.land ndims 0x0f)).
Definition packed_subtype (p : N) : option etype := etype_of (N.shiftr p 4).
Definition packed_ndims (p : N) : N := N.land p 0x0f.

(** bytecode.rs 316-340: [ErrorHandlerMode]. *)
Inductive ehmode := EhNone | EhResumeNext | EhJump.
Definition ehmode_code (m : ehmode) : N :=
  match m with EhNone => 0 | EhResumeNext => 1 | EhJump => 2 end.
Definition ehmode_of (n : N) : option ehmode :=
  match n with 0 => Some EhNone | 1 => Some EhResumeNext | 2 => Some EhJump | _ => None end.

(** bytecode.rs 451-640: [enum Opcode].  Opcodes with the "three registers" layout are
    grouped in [op3], those with a single register operand in [op1]. *)
Inductive op3 :=
| AddDouble | AddInteger | BitwiseAnd | BitwiseOr | BitwiseXor | Concat
| DivideDouble | DivideInteger
| EqualBoolean | EqualDouble | EqualInteger | EqualText
| GreaterDouble | GreaterEqualDouble | GreaterEqualInteger | GreaterEqualText
| GreaterInteger | GreaterText
| LessDouble | LessEqualDouble | LessEqualInteger | LessEqualText | LessInteger | LessText
| LoadArray | ModuloDouble | ModuloInteger | MultiplyDouble | MultiplyInteger
| NotEqualBoolean | NotEqualDouble | NotEqualInteger | NotEqualText
| PowerDouble | PowerInteger | ShiftLeft | ShiftRight | StoreArray
| SubtractDouble | SubtractInteger.

Inductive op1 :=
| BitwiseNot | DoubleToInteger | IntegerToDouble | NegateDouble | NegateInteger | EndOp.

Inductive instr :=
| I3 (o : op3) (v1 v2 v3 : N)
| I1 (o : op1) (v1 : N)
| IAlloc (dest : N) (t : etype)
| IAllocArray (dest packed first_dim : N)
| ICall (reg target : N)
| IGosub (target : N)
| IJump (target : N)
| IJumpIfFalse (cond target : N)
| ILoadConstant (dest idx : N)
| ILoadInteger (dest imm : N)
| ILoadRegPtr (dest : N) (t : etype) (reg : N)
| IMove (dest src : N)
| INop
| IReturn
| ISetErrorHandler (m : ehmode) (target : N)
| IUpcall (idx first : N)
| IUpcallAsync (idx first : N)
| IEof.

Definition op3_code (o : op3) : N :=
  match o with
  | AddDouble => 0 | AddInteger => 1 | BitwiseAnd => 4 | BitwiseOr => 6 | BitwiseXor => 7
  | Concat => 9 | DivideDouble => 10 | DivideInteger => 11
  | EqualBoolean => 13 | EqualDouble => 14 | EqualInteger => 15 | EqualText => 16
  | GreaterDouble => 18 | GreaterEqualDouble => 19 | GreaterEqualInteger => 20
  | GreaterEqualText => 21 | GreaterInteger => 22 | GreaterText => 23
  | LessDouble => 27 | LessEqualDouble => 28 | LessEqualInteger => 29 | LessEqualText => 30
  | LessInteger => 31 | LessText => 32 | LoadArray => 33
  | ModuloDouble => 37 | ModuloInteger => 38 | MultiplyDouble => 40 | MultiplyInteger => 41
  | NotEqualBoolean => 44 | NotEqualDouble => 45 | NotEqualInteger => 46 | NotEqualText => 47
  | PowerDouble => 49 | PowerInteger => 50 | ShiftLeft => 53 | ShiftRight => 54
  | StoreArray => 55 | SubtractDouble => 56 | SubtractInteger => 57
  end.

Definition op1_code (o : op1) : N :=
  match o with
  | BitwiseNot => 5 | DoubleToInteger => 12 | IntegerToDouble => 24
  | NegateDouble => 42 | NegateInteger => 43 | EndOp => 58
  end.

Definition code_Alloc := 2.
Definition code_AllocArray := 3.
Definition code_Call := 8.
Definition code_Gosub := 17.
Definition code_Jump := 25.
Definition code_JumpIfFalse := 26.
Definition code_LoadConstant := 34.
Definition code_LoadInteger := 35.
Definition code_LoadRegPtr := 36.
Definition code_Move := 39.
Definition code_Nop := 48.
Definition code_Return := 51.
Definition code_SetErrorHandler := 52.
Definition code_Upcall := 59.
Definition code_UpcallAsync := 60.
Definition code_Eof := 61.

(** bytecode.rs 354-443: the [instr!] macro, [$make] side: each field is masked and shifted
    and everything is or-ed together. *)
Definition field (mask off v : N) : N := N.shiftl (N.land v mask) off.
Definition make0 (op : N) : N := N.shiftl op 24.
Definition make1 (op f1 : N) : N := N.lor (N.shiftl op 24) f1.
Definition make2 (op f1 f2 : N) : N := N.lor (N.lor (N.shiftl op 24) f1) f2.
Definition make3 (op f1 f2 f3 : N) : N := N.lor (N.lor (N.lor (N.shiftl op 24) f1) f2) f3.

(** bytecode.rs 642-1169: the [make_*] functions, field layouts as written there. *)
Definition encode (i : instr) : N :=
  match i with
  | I3 o a b c => make3 (op3_code o) (field 0xff 16 a) (field 0xff 8 b) (field 0xff 0 c)
  | I1 o a => make1 (op1_code o) (field 0xff 0 a)
  | IAlloc r t => make2 code_Alloc (field 0xff 8 r) (field 0xff 0 (etype_code t))
  | IAllocArray r p f => make3 code_AllocArray (field 0xff 16 r) (field 0xff 8 p) (field 0xff 0 f)
  | ICall r t => make2 code_Call (field 0xff 16 r) (field 0xffff 0 t)
  | IGosub t => make1 code_Gosub (field 0xffff 0 t)
  | IJump t => make1 code_Jump (field 0xffff 0 t)
  | IJumpIfFalse r t => make2 code_JumpIfFalse (field 0xff 16 r) (field 0xffff 0 t)
  | ILoadConstant r i => make2 code_LoadConstant (field 0xff 16 r) (field 0xffff 0 i)
  | ILoadInteger r i => make2 code_LoadInteger (field 0xff 16 r) (field 0xffff 0 i)
  | ILoadRegPtr d t r =>
      make3 code_LoadRegPtr (field 0xff 16 d) (field 0xff 8 (etype_code t)) (field 0xff 0 r)
  | IMove d s => make2 code_Move (field 0xff 8 d) (field 0xff 0 s)
  | INop => make0 code_Nop
  | IReturn => make0 code_Return
  | ISetErrorHandler m t =>
      make2 code_SetErrorHandler (field 0xff 16 (ehmode_code m)) (field 0xffff 0 t)
  | IUpcall i r => make2 code_Upcall (field 0xffff 8 i) (field 0xff 0 r)
  | IUpcallAsync i r => make2 code_UpcallAsync (field 0xffff 8 i) (field 0xff 0 r)
  | IEof => make0 code_Eof
  end.

(** bytecode.rs 354-443: the [$parse] side of the [instr!] macro. *)
Definition get_field (mask off w : N) : N := N.land (N.shiftr w off) mask.

(** bytecode.rs 1172-1179: [opcode_of]. *)
Definition opcode_of (w : N) : N := N.land (N.shiftr w 24) 0xff.

Definition op3_of (n : N) : option op3 :=
  match n with
  | 0 => Some AddDouble | 1 => Some AddInteger | 4 => Some BitwiseAnd | 6 => Some BitwiseOr
  | 7 => Some BitwiseXor | 9 => Some Concat | 10 => Some DivideDouble | 11 => Some DivideInteger
  | 13 => Some EqualBoolean | 14 => Some EqualDouble | 15 => Some EqualInteger
  | 16 => Some EqualText | 18 => Some GreaterDouble | 19 => Some GreaterEqualDouble
  | 20 => Some GreaterEqualInteger | 21 => Some GreaterEqualText | 22 => Some GreaterInteger
  | 23 => Some GreaterText | 27 => Some LessDouble | 28 => Some LessEqualDouble
  | 29 => Some LessEqualInteger | 30 => Some LessEqualText | 31 => Some LessInteger
  | 32 => Some LessText | 33 => Some LoadArray | 37 => Some ModuloDouble
  | 38 => Some ModuloInteger | 40 => Some MultiplyDouble | 41 => Some MultiplyInteger
  | 44 => Some NotEqualBoolean | 45 => Some NotEqualDouble | 46 => Some NotEqualInteger
  | 47 => Some NotEqualText | 49 => Some PowerDouble | 50 => Some PowerInteger
  | 53 => Some ShiftLeft | 54 => Some ShiftRight | 55 => Some StoreArray
  | 56 => Some SubtractDouble | 57 => Some SubtractInteger
  | _ => None
  end.

Definition op1_of (n : N) : option op1 :=
  match n with
  | 5 => Some BitwiseNot | 12 => Some DoubleToInteger | 24 => Some IntegerToDouble
  | 42 => Some NegateDouble | 43 => Some NegateInteger | 58 => Some EndOp
  | _ => None
  end.

(** Dispatch on the opcode (core/src/vm/context.rs 402-480) followed by the matching
    [parse_*] function.  [None] stands for the undefined behaviour/panic of an unknown opcode,
    type tag or handler mode. *)
Definition decode (w : N) : option instr :=
  let op := opcode_of w in
  match op3_of op with
  | Some o => Some (I3 o (get_field 0xff 16 w) (get_field 0xff 8 w) (get_field 0xff 0 w))
  | None =>
  match op1_of op with
  | Some o => Some (I1 o (get_field 0xff 0 w))
  | None =>
    if op =? code_Alloc then
      match etype_of (get_field 0xff 0 w) with
      | Some t => Some (IAlloc (get_field 0xff 8 w) t) | None => None end
    else if op =? code_AllocArray then
      Some (IAllocArray (get_field 0xff 16 w) (get_field 0xff 8 w) (get_field 0xff 0 w))
    else if op =? code_Call then Some (ICall (get_field 0xff 16 w) (get_field 0xffff 0 w))
    else if op =? code_Gosub then Some (IGosub (get_field 0xffff 0 w))
    else if op =? code_Jump then Some (IJump (get_field 0xffff 0 w))
    else if op =? code_JumpIfFalse then
      Some (IJumpIfFalse (get_field 0xff 16 w) (get_field 0xffff 0 w))
    else if op =? code_LoadConstant then
      Some (ILoadConstant (get_field 0xff 16 w) (get_field 0xffff 0 w))
    else if op =? code_LoadInteger then
      Some (ILoadInteger (get_field 0xff 16 w) (get_field 0xffff 0 w))
    else if op =? code_LoadRegPtr then
      match etype_of (get_field 0xff 8 w) with
      | Some t => Some (ILoadRegPtr (get_field 0xff 16 w) t (get_field 0xff 0 w))
      | None => None end
    else if op =? code_Move then Some (IMove (get_field 0xff 8 w) (get_field 0xff 0 w))
    else if op =? code_Nop then Some INop
    else if op =? code_Return then Some IReturn
    else if op =? code_SetErrorHandler then
      match ehmode_of (get_field 0xff 16 w) with
      | Some m => Some (ISetErrorHandler m (get_field 0xffff 0 w)) | None => None end
    else if op =? code_Upcall then Some (IUpcall (get_field 0xffff 8 w) (get_field 0xff 0 w))
    else if op =? code_UpcallAsync then
      Some (IUpcallAsync (get_field 0xffff 8 w) (get_field 0xff 0 w))
    else if op =? code_Eof then Some IEof
    else None
  end end.

(** bytecode.rs 1186-1248: [VarArgTag]. *)
Inductive vararg_tag :=
| VMissing (s : argsep)
| VImmediate (s : argsep) (t : etype)
| VPointer (s : argsep).

Definition vararg_make (v : vararg_tag) : N :=
  let '(key, sep, other) :=
    match v with
    | VMissing s => (0, s, 0)
    | VImmediate s t => (1, s, etype_code t)
    | VPointer s => (2, s, 0)
    end in
  N.lor (N.lor (N.shiftl key 8) (N.shiftl (argsep_code sep) 4)) other.

(** [value & !0x0fff != 0] is "a bit above the low 12 is set". *)
Definition vararg_parse (v : N) : option vararg_tag :=
  if negb (N.shiftr v 12 =? 0) then None else
  let key := N.shiftr (N.land v 0x0f00) 8 in
  let sep := N.shiftr (N.land v 0x00f0) 4 in
  let other := N.land v 0x000f in
  match argsep_of sep with
  | None => None
  | Some s =>
    match key with
    | 0 => if other =? 0 then Some (VMissing s) else None
    | 1 => match etype_of other with Some t => Some (VImmediate s t) | None => None end
    | 2 => if other =? 0 then Some (VPointer s) else None
    | _ => None
    end
  end.
