(** What the machine of the standard library must do. *)
From Coq Require Import String.
From Verif Require Import Base Bytecode_Model Mem_Model Num_Model Vm_Model Vm_Spec Ast_Model Syms_Model Codegen_Model Exprs_Model
  Top_Model Incr_Spec Strings_Model Eval_Spec Call_Spec Exec_Spec User_Spec Program_Proofs Lex_Model Parse_Model Stmts_Model Machine_Model.
Local Open Scope string_scope.
Local Open Scope list_scope.
Local Open Scope nat_scope.

(** Nobody interrupts: in the world [w] there are no signals, no actions are requested, and nothing
    happens when the machine yields. *)
Definition calm {W} (o : outside W) (w : W) : Prop :=
  o_receive o w = (w, false) /\ o_take_actions o w = (w, []) /\ o_yield_now o w = w.

Section Machine.
Variable powf : N -> N -> N.
Variable alnum numeric : N -> bool.
Variable uc : N -> list N.
Variable show_msg : parse_msg -> ustr.
Context {W : Type}.
Variable host : list ustr -> N -> N -> nat -> image -> ctx -> heap -> W -> option (upcall_result W).
Variable callables : list (ustr * callable_md).
Variable global_defs : list global_def.
Variable o : outside W.

(** Running the machine [m] ends, with [x]. *)
Definition returns (m : machine) (x : exec_end) : Prop :=
  exists fuel, machine_exec powf alnum numeric uc show_msg host callables global_defs o fuel m = Some x.

Definition mem_of (m : machine (W := W)) : mem W := mkMem (v_heap W (mc_vm m)) (v_world W (mc_vm m)).
Definition ctx_of (m : machine (W := W)) : ctx := v_ctx W (mc_vm m).

(** The program that [m] is at goes on from [c] and [h]. *)
Definition continues (m : machine) (c : ctx) (h : mem W) : Prop :=
  runs powf (host (ci_upcalls (mc_image m))) (runnable (mc_image m)) (ctx_of m) (mem_of m) c h.

(** Nobody interrupts it. *)
Definition undisturbed (m : machine) : Prop := forall c h, continues m c h ->
  calm o (m_world h) /\
  forall e w, fails powf (host (ci_upcalls (mc_image m))) (runnable (mc_image m)) c h e w -> calm o w.

(** It goes on from [c] and [h] to [c'] and [h'], and nobody interrupts it on the way. *)
Inductive calmly (m : machine (W := W)) : ctx -> mem W -> ctx -> mem W -> Prop :=
| calmly_refl c h : calmly m c h c h
| calmly_step c (h : mem W) c1 h1 c2 h2 : step powf (runnable (mc_image m)) c h = RNext c1 h1 ->
    calmly m c1 (mkMem h1 (m_world h)) c2 h2 -> calmly m c h c2 h2
| calmly_yield c (h : mem W) c1 h1 c2 h2 : step powf (runnable (mc_image m)) c h = RStop SYield c1 h1 -> calm o (m_world h) ->
    calmly m c1 (mkMem h1 (m_world h)) c2 h2 -> calmly m c h c2 h2
| calmly_host c (h : mem W) idx first pc c1 h1 u c2 h2 : asks powf (runnable (mc_image m)) c h idx first pc c1 h1 ->
    host (ci_upcalls (mc_image m)) idx first pc (runnable (mc_image m)) c1 h1 (m_world h) = Some u -> u_failure W u = None ->
    calm o (u_world W u) ->
    calmly m (set_regs c1 (u_regs W u)) (mkMem (u_heap W u) (u_world W u)) c2 h2 -> calmly m c h c2 h2.

(** It runs out of memory. *)
Definition overflows (m : machine) : Prop := exists c h, continues m c h /\
  gives_up powf (host (ci_upcalls (mc_image m))) (runnable (mc_image m)) c h.

(** The machine waits for another input, and [s] is what its variables and the world hold. *)
Definition at_rest (m : machine) (hidden : N -> option hdatum) (s : env W) : Prop :=
  v_pending W (mc_vm m) = None /\
  ready (runnable (mc_image m)) (k_syms (mc_compiler m)) hidden (start_of (mc_compiler m)) (ctx_of m) (mem_of m) s.

(** The machine is at the end of its program. *)
Definition parked (m : machine (W := W)) : Prop :=
  v_pending W (mc_vm m) = None /\ S (c_pc (ctx_of m)) = length (ci_code (mc_image m)).

(** Both have the same program. *)
Definition same_program (m m' : machine (W := W)) : Prop := mc_compiler m' = mc_compiler m /\ mc_image m' = mc_image m.

(** The world has no variables. *)
Definition nothing (w : W) : env W := mkEnv (fun _ => None) w.

(** No instruction of the program sets an error handler. *)
Definition no_handler (m : machine) : Prop :=
  c_handler (ctx_of m) = HNone /\ forall pc md t, ~ fetched (runnable (mc_image m)) pc (ISetErrorHandler md t).
End Machine.
