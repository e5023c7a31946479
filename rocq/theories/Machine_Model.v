(** The machine that compiles and runs programs, /repo/std/src/lib.rs.

    Simplifications, all over this file:
    - All that is outside of the machine (what the callables act on, the console, the clearables,
      the queue of actions, the channel of signals and the yielder) is the world [W], and the
      operations on it are parameters.
    - The table of callables by the index that the image gives them, which [Vm::sync_upcalls]
      (/repo/core/src/vm/mod.rs:281-297) extends, is a function of the upcalls of the image.
    - [None] in the result of an operation is a panic. *)
From Coq Require Import String.
From Verif Require Import Base Bytecode_Model Mem_Model Num_Model Vm_Model Ast_Model Syms_Model Codegen_Model Exprs_Model
  Top_Model Strings_Model Lex_Model Parse_Model Stmts_Model.
Local Open Scope string_scope.
Local Open Scope list_scope.
Local Open Scope nat_scope.

(** lib.rs 87-93: [MachineAction]. *)
Inductive machine_action := MaClear | MaRun (program : ustr).

(** lib.rs 50-70: [Error], without the errors of callables, which the machine does not produce. *)
Inductive machine_error :=
| MeCompiler (e : cerror)
| MeIo (msg : ustr)
| MeRuntime (pos : linecol) (e : vm_error)
| MeBreak.

(** What the machine asks of the world outside of it. *)
Record outside (W : Type) := mkOutside {
  (** lib.rs 153: takes all the actions from the queue. *)
  o_take_actions : W -> W * list machine_action;
  (** lib.rs 175-181: takes one signal from the channel, if there is any. *)
  o_receive : W -> W * bool;
  (** lib.rs 184-190: what happens outside while the machine yields. *)
  o_yield_now : W -> W;
  (** lib.rs 130-132: resets the clearables. *)
  o_reset_state : W -> W;
  (** Prints a line on the console, which may fail. *)
  o_print_line : ustr -> W -> W * option ustr
}.
Arguments o_take_actions {W}.
Arguments o_receive {W}.
Arguments o_yield_now {W}.
Arguments o_reset_state {W}.
Arguments o_print_line {W}.

Section Machine.
Variable powf : N -> N -> N.
(** The tables of characters of the lexer, and how its and the parser's errors are shown. *)
Variable alnum numeric : N -> bool.
Variable uc : N -> list N.
Variable show_msg : parse_msg -> ustr.

Context {W : Type}.
(** The callables, by the upcalls of the image. *)
Variable host : list ustr -> N -> N -> nat -> image -> ctx -> heap -> W -> option (upcall_result W).
(** lib.rs 114 and 117: what the callables declare, and the predefined variables. *)
Variable callables : list (ustr * callable_md).
Variable global_defs : list global_def.
Variable o : outside W.
Local Notation take_actions := (o_take_actions o).
Local Notation receive := (o_receive o).
Local Notation yield_now := (o_yield_now o).
Local Notation reset_state := (o_reset_state o).
Local Notation print_line := (o_print_line o).

(** lib.rs 110-121. *)
Record machine := mkMachine { mc_compiler : compiler; mc_image : cimage; mc_vm : vm W }.
Definition set_vm (m : machine) (v : vm W) : machine := mkMachine (mc_compiler m) (mc_image m) v.
Definition machine_world (m : machine) : W := v_world W (mc_vm m).
Definition vm_set_world (v : vm W) (w : W) : vm W := mkVm W (v_ctx W v) (v_heap W v) (v_last_error W v) (v_pending W v) w.
Definition set_world (m : machine) (w : W) : machine := set_vm m (vm_set_world (mc_vm m) w).
Definition upcall_of (m : machine) : N -> N -> nat -> image -> ctx -> heap -> W -> option (upcall_result W) :=
  host (ci_upcalls (mc_image m)).

(** lib.rs 403-415: a new machine. *)
Definition machine_new (max_call_stack : nat) (max_heap : N) (w : W) : option machine :=
  match compiler_new callables global_defs with
  | COk k => Some (mkMachine k cimage_default (vm_new W max_call_stack max_heap w))
  | _ => None
  end.

(** lib.rs 129-137; [Vm::reset] does what [Vm::clear] does and drops the table of callables. *)
Definition machine_clear (m : machine) : option machine :=
  match compiler_new callables global_defs with
  | COk k => Some (mkMachine k cimage_default (vm_clear W (vm_set_world (mc_vm m) (reset_state (machine_world m)))))
  | _ => None
  end.

(** /repo/core/src/compiler/top.rs 1329-1334: the statements of a text up to the first error. *)
Definition text_source (text : ustr) : option source :=
  let '(ts, eof) := tokens alnum numeric uc text in
  match parse_stmts eof ts with
  | (l, None) => Some (l, None)
  | (l, Some (PBad pos msg)) => Some (l, Some (CeParse pos (show_msg msg)))
  | _ => None
  end.

(** lib.rs 193-196. *)
Definition machine_compile (text : ustr) (m : machine) : option (machine * res machine_error unit) :=
  match text_source text with
  | None => None
  | Some src =>
      let '(o, k, img) := compile_more (mc_compiler m) (mc_image m) src in
      let m := mkMachine k img (mc_vm m) in
      match o with
      | Compiled => Some (m, Ok tt)
      | Failed e => Some (m, Err (MeCompiler e))
      | Crashed => None
      end
  end.

(** lib.rs 139-142. *)
Definition machine_run (program : ustr) (m : machine) : option (machine * res machine_error unit) :=
  match machine_clear m with Some m => machine_compile program m | None => None end.

(** lib.rs 152-165, after the actions were taken; the others are lost if one fails. *)
Fixpoint apply_actions (l : list machine_action) (running : bool) (m : machine) : option (machine * res machine_error bool) :=
  match l with
  | [] => Some (m, Ok running)
  | MaClear :: r => match machine_clear m with Some m => apply_actions r running m | None => None end
  | MaRun program :: r =>
      match machine_run program m with
      | Some (m, Ok _) => apply_actions r true m
      | Some (m, Err e) => Some (m, Err e)
      | None => None
      end
  end.
Definition drain_actions (m : machine) : option (machine * res machine_error bool) :=
  let '(w, l) := take_actions (machine_world m) in apply_actions l false (set_world m w).
(** lib.rs 145-147. *)
Definition clear_actions (m : machine) : machine := set_world m (fst (take_actions (machine_world m))).

(** lib.rs 175-181. *)
Definition should_stop (m : machine) : machine * bool :=
  let '(w, b) := receive (machine_world m) in (set_world m w, b).

(** vm/mod.rs 275-278. *)
Definition clear_error_handler (m : machine) : machine :=
  let v := mc_vm m in
  set_vm m (mkVm W (set_handler (v_ctx W v) HNone) (v_heap W v) (v_last_error W v) (v_pending W v) (v_world W v)).

Definition machine_interrupt (m : machine) : machine := set_vm m (interrupt W (runnable (mc_image m)) (mc_vm m)).

(** The end of [Machine::exec], or a panic. *)
Inductive exec_end := Ended (m : machine) (r : res machine_error (option Z)) | EndPanic.

(** lib.rs 256-259, after the loop. *)
Definition leave_loop (running : bool) (m : machine) (r : res machine_error (option Z)) : exec_end :=
  Ended (if running then clear_error_handler m else m) r.

(** lib.rs 201-255: the body of the loop, after the machine [m] stopped with [x]; [again] is the
    rest of the loop. *)
Definition after_stop (again : bool -> machine -> option exec_end) (running : bool) (m : machine) (x : vm_result W)
  : option exec_end :=
  match x with
  | VPanic _ => Some EndPanic
  | VStop _ r v =>
      let m := set_vm m v in
      match r with
      | VEof => Some (leave_loop running m (Ok None))
      | VEnd code =>
          if negb running then Some (leave_loop running m (Ok (Some (Z.of_N code))))
          else if (code =? 0)%N then Some (leave_loop running m (Ok None))
          else
            let '(w, e) := print_line (u "Program exited with code " ++ to_string (Z.of_N code)) (machine_world m) in
            let m := set_world m w in
            match e with
            | Some msg => Some (Ended m (Err (MeIo msg)))
            | None => Some (leave_loop running m (Ok None))
            end
      | VException pos e => Some (leave_loop running m (Err (MeRuntime pos e)))
      | VUpcallAsync =>
          match invoke W (upcall_of m) (runnable (mc_image m)) v with
          | None => Some EndPanic
          | Some (v, failure) =>
              let '(m, stop) := should_stop (set_vm m v) in
              if stop then Some (leave_loop running (machine_interrupt (clear_actions m)) (Err MeBreak))
              else
                match failure with
                | Some (pos, e) => Some (leave_loop running (clear_actions m) (Err (MeRuntime pos e)))
                | None =>
                    match drain_actions m with
                    | None => Some EndPanic
                    | Some (m, Err e) => Some (Ended m (Err e))
                    | Some (m, Ok ran) => again (running || ran) m
                    end
                end
          end
      | VYield =>
          let '(m, stop) := should_stop (set_world m (yield_now (machine_world m))) in
          if stop then Some (leave_loop running (machine_interrupt m) (Err MeBreak)) else again running m
      end
  end.

(** lib.rs 201-255: the loop.  [None] is that [fuel] is too low. *)
Fixpoint machine_loop (fuel : nat) (running : bool) (m : machine) : option exec_end :=
  match fuel with
  | O => None
  | S n =>
      match vm_exec powf W (upcall_of m) fuel (runnable (mc_image m)) (mc_vm m) with
      | None => None
      | Some x => after_stop (machine_loop n) running m x
      end
  end.

(** lib.rs 199-260. *)
Definition machine_exec (fuel : nat) (m : machine) : option exec_end := machine_loop fuel false m.
End Machine.

Arguments Ended {W}.
Arguments EndPanic {W}.
Arguments mkMachine {W}.
