(** Notions used to state what the virtual machine guarantees. *)
From Verif Require Import Base Bytecode_Model Mem_Model Mem_Spec Num_Model Vm_Model.

(** The instruction at [pc]. *)
Definition fetched (img : image) (pc : nat) (i : instr) : Prop :=
  exists w, nth_error (i_code img) pc = Some w /\ decode w = Some i.

(** The instruction at [pc] jumps (possibly conditionally) to [target]. *)
Definition jumps_to (img : image) (pc target : nat) : Prop :=
  exists w t, nth_error (i_code img) pc = Some w /\ N.to_nat t = target /\
    (decode w = Some (IJump t) \/ exists r, decode w = Some (IJumpIfFalse r t)).

(** Every backward jump leaves from, or arrives at, the beginning of a statement. *)
Definition backward_jumps_marked (img : image) : Prop :=
  forall pc target, jumps_to img pc target -> target <= pc ->
    stmt_start img target = Some true \/ stmt_start img pc = Some true.

(** No instruction installs an [ON ERROR GOTO] handler. *)
Definition no_jump_handlers (img : image) : Prop :=
  forall pc w t, nth_error (i_code img) pc = Some w -> decode w <> Some (ISetErrorHandler EhJump t).

(** The value of an absolute register position (unset registers read as zero). *)
Definition slot (c : ctx) (i : nat) : N := nth i (c_regs c) 0%N.

(** Running instructions from one state to another without the call stack ever being
    shallower than [depth]. *)
Inductive runs_above powf (img : image) (depth : nat) : ctx -> heap -> ctx -> heap -> Prop :=
| runs_refl c h : runs_above powf img depth c h c h
| runs_step c h c1 h1 c2 h2 :
    step powf img c h = RNext c1 h1 -> depth <= length (c_stack c1) ->
    runs_above powf img depth c1 h1 c2 h2 ->
    runs_above powf img depth c h c2 h2.

(** [Vm::exec] returns [r]. *)
Definition vm_runs {W} powf upcall img (v : vm W) (r : vm_result W) : Prop :=
  exists fuel, vm_exec powf W upcall fuel img v = Some r.

(** [q] is the first statement start strictly after [pc], or the end of the code. *)
Definition next_statement (img : image) (pc q : nat) : Prop :=
  (pc < q /\ stmt_start img q = Some true /\
     forall k, pc < k < q -> stmt_start img k <> Some true) \/
  (q = length (i_code img) /\ forall k, pc < k -> stmt_start img k <> Some true).

(** Everything but the program counter is the same. *)
Definition same_but_pc (c c' : ctx) : Prop :=
  c_fp c' = c_fp c /\ c_handler c' = c_handler c /\ c_regs c' = c_regs c /\
  c_stack c' = c_stack c /\ c_max c' = c_max c /\ c_yield c' = c_yield c.

(** An error [e] reported at [pos] comes out of the instruction at [pc], leaving the machine
    state [c], [h], [w]: either an instruction failed or an external callable did. *)
Inductive raises {W} powf upcall (img : image) (v : vm W)
  : ctx -> heap -> W -> nat -> linecol -> vm_error -> Prop :=
| raises_instr c h pc e m :
    runs_above powf img 0 (v_ctx W v) (v_heap W v) c h ->
    step powf img c h = RStop (SException pc e) c h ->
    nth_error (i_meta img) pc = Some m ->
    raises powf upcall img v c h (v_world W v) pc (m_pos m) e
| raises_upcall c h c' h' idx first pc r p msg m :
    runs_above powf img 0 (v_ctx W v) (v_heap W v) c h ->
    step powf img c h = RStop (SUpcall idx first pc) c' h' ->
    upcall idx first pc img c' h' (v_world W v) = Some r ->
    u_failure W r = Some (p, msg) ->
    nth_error (i_meta img) pc = Some m ->
    raises powf upcall img v (set_regs c' (u_regs W r)) (u_heap W r) (u_world W r) pc
      (match p with Some q => q | None => m_pos m end) (XUpcall msg).

(** The array register [arr] of [c] designates the array number [i] of the heap. *)
Definition names_array (c : ctx) (h : heap) (arr : N) (i : N) : Prop :=
  (i < 2 ^ 24)%N /\ get_reg c arr = ptr_for_heap i /\
  exists dims vals, heap_get h i = Some (HArray dims vals) /\ N.of_nat (length vals) = product dims.

(** The consecutive local registers from [first] hold the subscripts [subs]. *)
Definition holds_subs (c : ctx) (first : N) (subs : list Z) : Prop :=
  (64 <= first)%N /\ (first + N.of_nat (length subs) <= 256)%N /\
  forall k s, nth_error subs k = Some s -> as_i32 (slot c (c_fp c + N.to_nat (first - 64) + k)) = s.

(** The element of array [i] at subscripts [subs] is [v]. *)
Definition element (h : heap) (i : N) (subs : list Z) (v : N) : Prop :=
  exists dims vals, heap_get h i = Some (HArray dims vals) /\ valid_subs dims subs /\
    nth_error vals (N.to_nat (position dims subs)) = Some v.

(** The number of dimensions of array [i]. *)
Definition rank_of (h : heap) (i : N) (dims : list N) : Prop :=
  exists vals, heap_get h i = Some (HArray dims vals).

(** Index of the first dimension that is not positive. *)
Definition first_nonpositive (l : list Z) (i : nat) (z : Z) : Prop :=
  nth_error l i = Some z /\ (z <= 0)%Z /\ forall k y, k < i -> nth_error l k = Some y -> (0 < y)%Z.
