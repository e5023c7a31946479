(** The virtual machine: registers, instruction execution, error handling and upcalls.
    Models core/src/vm/context.rs and core/src/vm/mod.rs. *)
From Verif Require Import Base Bytecode_Model Mem_Model Num_Model.

(** core/src/reader.rs 24-33: a source position (line, column). *)
Definition linecol := (N * N)%type.

(** core/src/image.rs 111-123: [InstrMetadata]. *)
Record instr_meta := mkMeta {
  m_pos : linecol;
  m_stmt_start : bool;
  m_args : list linecol
}.

(** core/src/image.rs 178-196: [Image]; only what the machine reads.  [DebugInfo::instrs] is
    [i_meta]; upcalls are referred to by index. *)
Record image := mkImage {
  i_code : list N;
  i_constants : list cdatum;
  i_data : list (option cdatum);
  i_meta : list instr_meta
}.

(** vm/context.rs 61-74: [ErrorHandler]. *)
Inductive handler :=
| HNone
| HJump (active : bool) (addr : nat)
| HResumeNext.

(** vm/context.rs 78-87: [Frame]. *)
Record frame := mkFrame { f_pc : nat; f_fp : nat; f_ret : option N }.

(** Every message [set_exception] is given, as data. *)
Inductive vm_error :=
| XInt (e : int_error)
| XDimension (i : nat)
| XHeap
| XSubscript (e : sub_error)
| XCast (bits : N)
| XExitCode (z : Z)
| XCallStack
| XReturn
| XUpcall (msg : ustr).

(** vm/context.rs 168-194: [Context], without [stop], which is the result of a step.  The top
    of the call stack is the head of the list. *)
Record ctx := mkCtx {
  c_pc : nat;
  c_fp : nat;
  c_handler : handler;
  c_regs : list N;
  c_stack : list frame;
  c_max : nat;
  c_yield : bool
}.

Definition set_pc (c : ctx) (pc : nat) : ctx :=
  mkCtx pc (c_fp c) (c_handler c) (c_regs c) (c_stack c) (c_max c) (c_yield c).
Definition set_handler (c : ctx) (h : handler) : ctx :=
  mkCtx (c_pc c) (c_fp c) h (c_regs c) (c_stack c) (c_max c) (c_yield c).
Definition set_regs (c : ctx) (r : list N) : ctx :=
  mkCtx (c_pc c) (c_fp c) (c_handler c) r (c_stack c) (c_max c) (c_yield c).
Definition set_yield (c : ctx) (y : bool) : ctx :=
  mkCtx (c_pc c) (c_fp c) (c_handler c) (c_regs c) (c_stack c) (c_max c) y.

(** vm/context.rs 204-215. *)
Definition ctx_new (max_call_stack : nat) : ctx :=
  mkCtx 0 64 HNone (repeat 0%N 255) [] max_call_stack false.

(** vm/context.rs 387-395. *)
Definition clear_runtime_state (c : ctx) : ctx :=
  mkCtx 0 64 HNone (map (fun _ => 0%N) (c_regs c)) [] (c_max c) false.

(** vm/context.rs 220-227. *)
Definition reg_index (c : ctx) (reg : N) : nat :=
  let '(is_global, index) := register_to_parts reg in
  if is_global then N.to_nat index else N.to_nat index + c_fp c.

(** vm/context.rs 232-235. *)
Definition get_reg (c : ctx) (reg : N) : N := nth (reg_index c reg) (c_regs c) 0%N.

(** [Vec::resize] with zeros, then the indexed store. *)
Definition put (regs : list N) (i : nat) (v : N) : list N :=
  upd (regs ++ repeat 0%N (S i - length regs)) i v.

(** vm/context.rs 240-246. *)
Definition set_reg (c : ctx) (reg v : N) : ctx :=
  set_regs c (put (c_regs c) (reg_index c reg) v).

Definition next_pc (c : ctx) : ctx := set_pc c (S (c_pc c)).

(** vm/context.rs 31-56: [InternalStopReason]. *)
Inductive stop :=
| SEnd (code : N)
| SEof
| SException (pc : nat) (e : vm_error)
| SUpcall (idx first : N) (pc : nat)
| SUpcallAsync (idx first : N) (pc : nat)
| SYield.

(** The outcome of one iteration of the execution loop; [RPanic] is a Rust panic. *)
Inductive step_result :=
| RNext (c : ctx) (h : heap)
| RStop (s : stop) (c : ctx) (h : heap)
| RPanic.

(** vm/context.rs 335-337. *)
Definition set_exception (c : ctx) (h : heap) (e : vm_error) : step_result :=
  RStop (SException (c_pc c) e) c h.

Definition b2n (b : bool) : N := if b then 1%N else 0%N.

(** Text order: Rust compares strings by UTF-8 bytes, which is the order of code points. *)
Fixpoint text_compare (a b : ustr) : comparison :=
  match a, b with
  | [], [] => Eq
  | [], _ :: _ => Lt
  | _ :: _, [] => Gt
  | x :: a', y :: b' => match N.compare x y with Eq => text_compare a' b' | o => o end
  end.
Definition text_lt (a b : ustr) : bool := match text_compare a b with Lt => true | _ => false end.
Definition text_le (a b : ustr) : bool := match text_compare a b with Gt => false | _ => true end.

Section Exec.
(** [f64::powf], which comes from the C library. *)
Variable powf : N -> N -> N.

(** vm/context.rs 484-499. *)
Definition do_binary_double_op (c : ctx) (h : heap) (d a b : N) (op : N -> N -> N) : step_result :=
  RNext (next_pc (set_reg c d (op (get_reg c a) (get_reg c b)))) h.

(** vm/context.rs 503-516. *)
Definition do_binary_double_predicate_op (c : ctx) (h : heap) (d a b : N) (op : N -> N -> bool)
  : step_result :=
  RNext (next_pc (set_reg c d (b2n (op (get_reg c a) (get_reg c b))))) h.

(** vm/context.rs 520-541. *)
Definition do_binary_integer_op (c : ctx) (h : heap) (d a b : N) (op : Z -> Z -> res int_error Z)
  : step_result :=
  match op (as_i32 (get_reg c a)) (as_i32 (get_reg c b)) with
  | Ok r => RNext (next_pc (set_reg c d (i32_as_u64 r))) h
  | Err e => set_exception c h (XInt e)
  end.

(** vm/context.rs 545-558. *)
Definition do_binary_integer_predicate_op (c : ctx) (h : heap) (d a b : N) (op : Z -> Z -> bool)
  : step_result :=
  RNext (next_pc (set_reg c d (b2n (op (as_i32 (get_reg c a)) (as_i32 (get_reg c b)))))) h.

(** vm/context.rs 562-575. *)
Definition do_binary_boolean_op (c : ctx) (h : heap) (d a b : N) (op : bool -> bool -> bool)
  : step_result :=
  RNext (next_pc (set_reg c d (b2n (op (negb (get_reg c a =? 0)%N) (negb (get_reg c b =? 0)%N))))) h.

(** vm/context.rs 579-594. *)
Definition do_binary_text_op (c : ctx) (h : heap) (cs : list cdatum) (d a b : N)
  (op : ustr -> ustr -> bool) : step_result :=
  match deref_text (get_reg c a) cs h, deref_text (get_reg c b) cs h with
  | Some l, Some r => RNext (next_pc (set_reg c d (b2n (op l r)))) h
  | _, _ => RPanic
  end.

(** vm/context.rs 690-704. *)
Definition do_concat (c : ctx) (h : heap) (cs : list cdatum) (d a b : N) : step_result :=
  match deref_text (get_reg c a) cs h, deref_text (get_reg c b) cs h with
  | Some l, Some r =>
      match heap_push h (HText (l ++ r)) with
      | Some (h', p) => RNext (next_pc (set_reg c d p)) h'
      | None => set_exception c h XHeap
      end
  | _, _ => RPanic
  end.

(** vm/context.rs 623-634: the dimensions in consecutive local registers from [first]. *)
Fixpoint read_dims (c : ctx) (first : N) (i n : nat) : option (res nat (list N)) :=
  match n with
  | O => Some (Ok [])
  | S n' =>
      match register_local (first + N.of_nat i) with
      | None => None
      | Some r =>
          let d := as_i32 (get_reg c r) in
          if (d <=? 0)%Z then Some (Err i)
          else match read_dims c first (S i) n' with
               | Some (Ok ds) => Some (Ok (Z.to_N d :: ds))
               | o => o
               end
      end
  end.

(** [total *= dim] over all dimensions. *)
Definition dims_total (ds : list N) : N := fold_left N.mul ds 1%N.

(** vm/context.rs 615-652.  [usize] products beyond what a vector can hold panic. *)
Definition do_alloc_array (c : ctx) (h : heap) (d packed first : N) : step_result :=
  match packed_subtype packed with
  | None => RPanic
  | Some t =>
      let first_idx := snd (register_to_parts first) in
      match read_dims c first_idx 0 (N.to_nat (packed_ndims packed)) with
      | None => RPanic
      | Some (Err i) => set_exception c h (XDimension i)
      | Some (Ok ds) =>
          if (2 ^ 60 <=? dims_total ds)%N then RPanic
          else
            let zero := match t with TText => empty_text_ptr h | _ => 0%N end in
            let values := repeat zero (N.to_nat (dims_total ds)) in
            match heap_push h (HArray ds values) with
            | Some (h', p) => RNext (next_pc (set_reg c d p)) h'
            | None => set_exception c h XHeap
            end
      end
  end.

(** vm/context.rs 314-320: the subscripts in consecutive local registers. *)
Fixpoint read_subs (c : ctx) (first : N) (i n : nat) : option (list Z) :=
  match n with
  | O => Some []
  | S n' =>
      match register_local (first + N.of_nat i) with
      | None => None
      | Some r =>
          match read_subs c first (S i) n' with
          | Some l => Some (as_i32 (get_reg c r) :: l)
          | None => None
          end
      end
  end.

(** vm/context.rs 301-329; the outer [None] is a panic. *)
Definition resolve_array_index (c : ctx) (arr first : N) (h : heap)
  : option (res sub_error (N * N)) :=
  match ptr_from (get_reg c arr) with
  | None => None
  | Some p =>
      match heap_index p with
      | None => None
      | Some i =>
          match heap_get h i with
          | Some (HArray dims _) =>
              match read_subs c (snd (register_to_parts first)) 0 (length dims) with
              | None => None
              | Some subs =>
                  match flat_index dims subs with
                  | Ok k => Some (Ok (i, k))
                  | Err e => Some (Err e)
                  end
              end
          | _ => None
          end
      end
  end.

(** vm/context.rs 897-908. *)
Definition do_load_array (c : ctx) (h : heap) (d arr first : N) : step_result :=
  match resolve_array_index c arr first h with
  | None => RPanic
  | Some (Err e) => set_exception c h (XSubscript e)
  | Some (Ok (i, k)) =>
      match heap_get h i with
      | Some (HArray _ values) =>
          match nth_error values (N.to_nat k) with
          | Some v => RNext (next_pc (set_reg c d v)) h
          | None => RPanic
          end
      | _ => RPanic
      end
  end.

(** vm/context.rs 1097-1109. *)
Definition do_store_array (c : ctx) (h : heap) (arr val first : N) : step_result :=
  let value := get_reg c val in
  match resolve_array_index c arr first h with
  | None => RPanic
  | Some (Err e) => set_exception c h (XSubscript e)
  | Some (Ok (i, k)) =>
      match heap_get h i with
      | Some (HArray dims values) =>
          if (k <? N.of_nat (length values))%N then
            RNext (next_pc c) (heap_set h i (HArray dims (upd values (N.to_nat k) value)))
          else RPanic
      | _ => RPanic
      end
  end.

(** The three-register instructions: vm/context.rs 597-1119, one [do_*] function each. *)
Definition do_op3 (c : ctx) (h : heap) (cs : list cdatum) (o : op3) (x y z : N) : step_result :=
  match o with
  | AddDouble => do_binary_double_op c h x y z f64_add
  | SubtractDouble => do_binary_double_op c h x y z f64_sub
  | MultiplyDouble => do_binary_double_op c h x y z f64_mul
  | DivideDouble => do_binary_double_op c h x y z f64_div
  | ModuloDouble => do_binary_double_op c h x y z f64_rem
  | PowerDouble => do_binary_double_op c h x y z powf
  | AddInteger => do_binary_integer_op c h x y z checked_add_integer
  | SubtractInteger => do_binary_integer_op c h x y z checked_sub_integer
  | MultiplyInteger => do_binary_integer_op c h x y z checked_mul_integer
  | DivideInteger => do_binary_integer_op c h x y z checked_div_integer
  | ModuloInteger => do_binary_integer_op c h x y z checked_mod_integer
  | PowerInteger => do_binary_integer_op c h x y z power_integer
  | BitwiseAnd => do_binary_integer_op c h x y z checked_and_integer
  | BitwiseOr => do_binary_integer_op c h x y z checked_or_integer
  | BitwiseXor => do_binary_integer_op c h x y z checked_xor_integer
  | ShiftLeft => do_binary_integer_op c h x y z checked_shl_integer
  | ShiftRight => do_binary_integer_op c h x y z checked_shr_integer
  | EqualBoolean => do_binary_boolean_op c h x y z Bool.eqb
  | NotEqualBoolean => do_binary_boolean_op c h x y z xorb
  | EqualDouble => do_binary_double_predicate_op c h x y z f64_eq
  | NotEqualDouble => do_binary_double_predicate_op c h x y z (fun a b => negb (f64_eq a b))
  | LessDouble => do_binary_double_predicate_op c h x y z f64_lt
  | LessEqualDouble => do_binary_double_predicate_op c h x y z f64_le
  | GreaterDouble => do_binary_double_predicate_op c h x y z (fun a b => f64_lt b a)
  | GreaterEqualDouble => do_binary_double_predicate_op c h x y z (fun a b => f64_le b a)
  | EqualInteger => do_binary_integer_predicate_op c h x y z Z.eqb
  | NotEqualInteger => do_binary_integer_predicate_op c h x y z (fun a b => negb (Z.eqb a b))
  | LessInteger => do_binary_integer_predicate_op c h x y z Z.ltb
  | LessEqualInteger => do_binary_integer_predicate_op c h x y z Z.leb
  | GreaterInteger => do_binary_integer_predicate_op c h x y z Z.gtb
  | GreaterEqualInteger => do_binary_integer_predicate_op c h x y z Z.geb
  | EqualText => do_binary_text_op c h cs x y z ustr_eqb
  | NotEqualText => do_binary_text_op c h cs x y z (fun a b => negb (ustr_eqb a b))
  | LessText => do_binary_text_op c h cs x y z text_lt
  | LessEqualText => do_binary_text_op c h cs x y z text_le
  | GreaterText => do_binary_text_op c h cs x y z (fun a b => text_lt b a)
  | GreaterEqualText => do_binary_text_op c h cs x y z (fun a b => text_le b a)
  | Concat => do_concat c h cs x y z
  | LoadArray => do_load_array c h x y z
  | StoreArray => do_store_array c h x y z
  end.

(** The one-register instructions. *)
Definition do_op1 (c : ctx) (h : heap) (o : op1) (r : N) : step_result :=
  match o with
  (* 660-665 *)
  | BitwiseNot => RNext (next_pc (set_reg c r (i32_as_u64 (not_integer (as_i32 (get_reg c r)))))) h
  (* 717-727; the message shows the rounded value *)
  | DoubleToInteger =>
      match double_to_integer (get_reg c r) with
      | Some z => RNext (next_pc (set_reg c r (i32_as_u64 z))) h
      | None => set_exception c h (XCast (f64_bits (sf_round (f64_sf (get_reg c r)))))
      end
  (* 826-831 *)
  | IntegerToDouble => RNext (next_pc (set_reg c r (f64_of_i32 (as_i32 (get_reg c r))))) h
  (* 966-971 *)
  | NegateDouble => RNext (next_pc (set_reg c r (f64_neg (get_reg c r)))) h
  (* 974-986 *)
  | NegateInteger =>
      match checked_neg_integer (as_i32 (get_reg c r)) with
      | Ok z => RNext (next_pc (set_reg c r (i32_as_u64 z))) h
      | Err e => set_exception c h (XInt e)
      end
  (* 750-761 *)
  | EndOp =>
      let z := as_i32 (get_reg c r) in
      match exit_code_try_new z with
      | Some code => RStop (SEnd code) c h
      | None => set_exception c h (XExitCode z)
      end
  end.

(** vm/context.rs 339-347. *)
Definition push_frame (c : ctx) (f : frame) : option ctx :=
  if c_max c <=? length (c_stack c) then None
  else Some (mkCtx (c_pc c) (c_fp c) (c_handler c) (c_regs c) (f :: c_stack c) (c_max c) (c_yield c)).

(** vm/context.rs 834-841. *)
Definition jump_to (c : ctx) (target : nat) : ctx :=
  let c' := set_pc c target in
  if target <=? c_pc c then set_yield c' true else c'.

(** vm/context.rs 1052-1071. *)
Definition do_return (c : ctx) (h : heap) : step_result :=
  match c_stack c with
  | [] => set_exception c h XReturn
  | f :: rest =>
      match f_ret f with
      | Some ret =>
          let v := get_reg c 64 in
          let c1 := mkCtx (S (f_pc f)) (f_fp f) (c_handler c) (c_regs c) rest (c_max c) (c_yield c) in
          RNext (set_reg c1 ret v) h
      | None =>
          RNext (mkCtx (S (f_pc f)) (f_fp f) (c_handler c) (c_regs c) rest (c_max c) true) h
      end
  end.

(** vm/context.rs 412-477: the dispatch on the opcode. *)
Definition dispatch (img : image) (c : ctx) (h : heap) (i : instr) : step_result :=
  match i with
  | I3 o x y z => do_op3 c h (i_constants img) o x y z
  | I1 o r => do_op1 c h o r
  (* 607-612 *)
  | IAlloc d _ => RNext (next_pc (set_reg c d (empty_text_ptr h))) h
  | IAllocArray d p f => do_alloc_array c h d p f
  (* 678-687 *)
  | ICall reg target =>
      match push_frame c (mkFrame (c_pc c) (c_fp c) (Some reg)) with
      | None => set_exception c h XCallStack
      | Some c1 =>
          RNext (mkCtx (N.to_nat target) (c_fp c + N.to_nat (snd (register_to_parts reg)))
                   (c_handler c1) (c_regs c1) (c_stack c1) (c_max c1) (c_yield c1)) h
      end
  (* 770-776 *)
  | IGosub target =>
      match push_frame c (mkFrame (c_pc c) (c_fp c) None) with
      | None => set_exception c h XCallStack
      | Some c1 => RNext (set_pc c1 (N.to_nat target)) h
      end
  | IJump target => RNext (jump_to c (N.to_nat target)) h
  (* 844-855 *)
  | IJumpIfFalse r target =>
      if (get_reg c r =? 0)%N then RNext (jump_to c (N.to_nat target)) h else RNext (next_pc c) h
  (* 911-920 *)
  | ILoadConstant d i =>
      match nth_error (i_constants img) (N.to_nat i) with
      | Some (CDouble bits) => RNext (next_pc (set_reg c d bits)) h
      | Some (CInt z) => RNext (next_pc (set_reg c d (i32_as_u64 z))) h
      | _ => RPanic
      end
  (* 923-927 *)
  | ILoadInteger d i => RNext (next_pc (set_reg c d i)) h
  (* 930-935 *)
  | ILoadRegPtr d t r =>
      match tagged_ref_new r (N.of_nat (c_fp c)) t with
      | Some v => RNext (next_pc (set_reg c d v)) h
      | None => RPanic
      end
  (* 948-953 *)
  | IMove d s => RNext (next_pc (set_reg c d (get_reg c s))) h
  | INop => RNext (next_pc c) h
  | IReturn => do_return c h
  (* 1074-1084 *)
  | ISetErrorHandler m target =>
      let hd := match m with
                | EhNone => HNone
                | EhJump => HJump false (N.to_nat target)
                | EhResumeNext => HResumeNext
                end in
      RNext (next_pc (set_handler c hd)) h
  (* 1122-1135 *)
  | IUpcall i r => RStop (SUpcall i r (c_pc c)) (next_pc c) h
  | IUpcallAsync i r => RStop (SUpcallAsync i r (c_pc c)) (next_pc c) h
  (* 764-767 *)
  | IEof => RStop SEof c h
  end.

(** vm/context.rs 404: the metadata lookup is only evaluated when a yield is pending. *)
Definition stmt_start (img : image) (pc : nat) : option bool :=
  match nth_error (i_meta img) pc with Some m => Some (m_stmt_start m) | None => None end.

(** vm/context.rs 403-478: one iteration of the loop. *)
Definition fetch_exec (img : image) (c : ctx) (h : heap) : step_result :=
  match nth_error (i_code img) (c_pc c) with
  | None => RPanic
  | Some w => match decode w with Some i => dispatch img c h i | None => RPanic end
  end.
Definition step (img : image) (c : ctx) (h : heap) : step_result :=
  if c_yield c then
    match stmt_start img (c_pc c) with
    | None => RPanic
    | Some true => RStop SYield (set_yield c false) h
    | Some false => fetch_exec img c h
    end
  else fetch_exec img c h.

(** vm/context.rs 402-480: [Context::exec], running for at most [fuel] instructions. *)
Fixpoint ctx_exec (fuel : nat) (img : image) (c : ctx) (h : heap) : option step_result :=
  match fuel with
  | O => None
  | S n =>
      match step img c h with
      | RNext c' h' => ctx_exec n img c' h'
      | r => Some r
      end
  end.

(** * vm/mod.rs *)

(** External callables: [W] is the state of the world they act on.  A callable reads and
    writes registers, the heap and the world, never the control state (callable.rs 909-942,
    the fields of [Scope]).  The failure is a message with an optional position. *)
Variable W : Type.
Record upcall_result := mkUpcall {
  u_regs : list N; u_heap : heap; u_world : W; u_failure : option (option linecol * ustr)
}.
Variable upcall : N -> N -> nat -> image -> ctx -> heap -> W -> option upcall_result.

(** vm/mod.rs 122-146: [Vm]; the upcall table is the oracle. *)
Record vm := mkVm {
  v_ctx : ctx;
  v_heap : heap;
  v_last_error : option (linecol * vm_error);
  v_pending : option (N * N * nat);
  v_world : W
}.

(** vm/mod.rs 299-302. *)
Definition park_at_eof (img : image) (c : ctx) : ctx := set_pc c (length (i_code img) - 1).

(** vm/mod.rs 353-359: the first statement start from [pc] on. *)
Fixpoint find_stmt_start (pc : nat) (metas : list instr_meta) : option nat :=
  match metas with
  | [] => None
  | m :: r => if m_stmt_start m then Some pc else find_stmt_start (S pc) r
  end.
Definition resume_point (img : image) (pc : nat) : nat :=
  match find_stmt_start (S pc) (skipn (S pc) (i_meta img)) with
  | Some i => i
  | None => length (i_code img)
  end.

(** vm/mod.rs 335-364; also returns whether the error was handled. *)
Definition handle_exception (img : image) (v : vm) (pc : nat) (pos : linecol) (e : vm_error)
  : vm * bool :=
  let c := v_ctx v in
  let with_ctx c' := mkVm c' (v_heap v) (Some (pos, e)) (v_pending v) (v_world v) in
  match c_handler c with
  | HNone => (with_ctx c, false)
  | HJump true _ => (with_ctx c, false)
  | HJump false addr => (with_ctx (set_pc (set_handler c (HJump true addr)) addr), true)
  | HResumeNext => (with_ctx (set_pc c (resume_point img pc)), true)
  end.

(** vm/mod.rs 104-119: [StopReason]. *)
Inductive stop_reason :=
| VEnd (code : N)
| VEof
| VException (pos : linecol) (e : vm_error)
| VUpcallAsync
| VYield.

Inductive vm_result :=
| VStop (r : stop_reason) (v : vm)
| VPanic.

Definition park (img : image) (v : vm) : vm :=
  mkVm (park_at_eof img (v_ctx v)) (v_heap v) (v_last_error v) (v_pending v) (v_world v).

(** vm/mod.rs 150-186, 464-472: running an upcall and dealing with its failure.  The result
    says whether the failure, if any, was left unhandled. *)
Definition run_upcall (img : image) (v : vm) (idx first : N) (pc : nat)
  : option (vm * option (linecol * vm_error)) :=
  match upcall idx first pc img (v_ctx v) (v_heap v) (v_world v) with
  | None => None
  | Some r =>
      let v1 := mkVm (set_regs (v_ctx v) (u_regs r)) (u_heap r) (v_last_error v) (v_pending v)
                  (u_world r) in
      match u_failure r with
      | None => Some (v1, None)
      | Some (p, msg) =>
          match nth_error (i_meta img) pc with
          | None => None
          | Some m =>
              let pos := match p with Some q => q | None => m_pos m end in
              let e := XUpcall msg in
              let '(v2, handled) := handle_exception img v1 pc pos e in
              Some (v2, if handled then None else Some (pos, e))
          end
      end
  end.

(** vm/mod.rs 446-481: one iteration of the loop in [Vm::exec]; [inl] continues. *)
Definition vm_turn (fuel : nat) (img : image) (v : vm) : option (vm + vm_result) :=
  match v_pending v with
  | Some _ => Some (inr (VStop VUpcallAsync v))
  | None =>
      match ctx_exec fuel img (v_ctx v) (v_heap v) with
      | None => None
      | Some RPanic => Some (inr VPanic)
      | Some (RNext _ _) => None
      | Some (RStop s c h) =>
          let v1 := mkVm c h (v_last_error v) (v_pending v) (v_world v) in
          match s with
          | SEnd code => Some (inr (VStop (VEnd code) (park img v1)))
          | SEof => Some (inr (VStop VEof v1))
          | SException pc e =>
              match nth_error (i_meta img) pc with
              | None => Some (inr VPanic)
              | Some m =>
                  let '(v2, handled) := handle_exception img v1 pc (m_pos m) e in
                  if handled then Some (inl v2)
                  else Some (inr (VStop (VException (m_pos m) e) (park img v2)))
              end
          | SUpcall idx first pc =>
              match run_upcall img v1 idx first pc with
              | None => Some (inr VPanic)
              | Some (v2, None) => Some (inl v2)
              | Some (v2, Some (pos, e)) => Some (inr (VStop (VException pos e) (park img v2)))
              end
          | SUpcallAsync idx first pc =>
              Some (inr (VStop VUpcallAsync
                           (mkVm c h (v_last_error v) (Some (idx, first, pc)) (v_world v))))
          | SYield => Some (inr (VStop VYield v1))
          end
      end
  end.

(** vm/mod.rs 443-482: [Vm::exec]; [None] means more fuel is needed. *)
Fixpoint vm_exec (fuel : nat) (img : image) (v : vm) : option vm_result :=
  match fuel with
  | O => None
  | S n =>
      match vm_turn fuel img v with
      | None => None
      | Some (inr r) => Some r
      | Some (inl v') => vm_exec n img v'
      end
  end.

(** vm/mod.rs 84-100: [UpcallHandler::invoke]; the second component is the returned error. *)
Definition invoke (img : image) (v : vm) : option (vm * option (linecol * vm_error)) :=
  match v_pending v with
  | None => None
  | Some (idx, first, pc) =>
      let v1 := mkVm (v_ctx v) (v_heap v) (v_last_error v) None (v_world v) in
      match run_upcall img v1 idx first pc with
      | None => None
      | Some (v2, None) => Some (v2, None)
      | Some (v2, Some e) => Some (park img v2, Some e)
      end
  end.

(** vm/mod.rs 488-491. *)
Definition interrupt (img : image) (v : vm) : vm :=
  park img (mkVm (v_ctx v) (v_heap v) (v_last_error v) None (v_world v)).

(** vm/mod.rs 268-273 (254-261 also drops the upcall cache, which is not modelled). *)
Definition vm_clear (v : vm) : vm :=
  mkVm (clear_runtime_state (v_ctx v)) (heap_clear (v_heap v)) None None (v_world v).

(** vm/mod.rs 238-251. *)
Definition vm_new (max_call_stack : nat) (max_heap : N) (w : W) : vm :=
  mkVm (ctx_new max_call_stack) (heap_new max_heap) None None w.

End Exec.
