(** C10 for compiled programs. *)
From Coq Require Import String.
From Verif Require Import Base Bytecode_Model Mem_Model Num_Model Vm_Model Vm_Spec Vm_Proofs Vm_Props Ast_Model Syms_Model
  Codegen_Model Top_Model Incr_Spec Marks_Spec Marks_Proofs.
Local Open Scope string_scope.
Local Open Scope list_scope.
Local Open Scope nat_scope.

(** Whatever inputs a session was given, in whatever order and with whatever errors, every
    backward jump of its image leaves from, or arrives at, the beginning of a statement, where
    the machine yields. *)
Theorem C10_compiled_jumps_yield : forall upcalls defs srcs k img,
  session upcalls defs srcs k img -> backward_jumps_marked (runnable img).
Proof. intros. eapply session_marked; eassumption. Qed.
Print Assumptions C10_compiled_jumps_yield.

(** The instruction loop of a compiled program stops, from every state. *)
Theorem C10_compiled_loop_stops : forall powf upcalls defs srcs k img c h,
  session upcalls defs srcs k img -> exists fuel r, ctx_exec powf fuel (runnable img) c h = Some r.
Proof. intros. eapply ctx_exec_stops, session_marked. eassumption. Qed.
Print Assumptions C10_compiled_loop_stops.

(** The machine comes back to the host from every state of every program in which ON ERROR GOTO
    does not occur, whatever the external callables do. *)
Theorem C10_compiled_programs_stop : forall W powf upcall upcalls defs srcs k img (v : vm W),
  session upcalls defs srcs k img -> Forall without_on_error_goto srcs ->
  (forall a, c_handler (v_ctx W v) <> HJump false a) ->
  exists r, vm_runs powf upcall (runnable img) v r.
Proof.
  intros * S F V. apply vm_stops; [eapply session_marked; eassumption|eapply session_no_handlers; eassumption|exact V].
Qed.
Print Assumptions C10_compiled_programs_stop.

(** [@a: DO: WHILE TRUE: WEND: LOOP: GOTO @a] *)
Definition loops : source :=
  ([StLabel (u "a") (1, 1)%N;
    StDo GInfinite [StWhile (EBoolean true (1, 11)%N) []];
    StGoto (u "a") (1, 40)%N], None).
Example C10_compiled_case : exists k img,
  session [] [] [loops] k img /\ without_on_error_goto loops /\
  (exists pc t, jumps_to (runnable img) pc t /\ t < pc) /\
  exists v, vm_runs no_pow no_upcall (runnable img) fresh_vm (VStop unit VYield v).
Proof.
  destruct (compiler_new [] []) as [k0| |] eqn:E0; [|discriminate E0..].
  destruct (compile_more k0 cimage_default loops) as [[o k] img] eqn:E1.
  exists k, img. split; [|split; [reflexivity|]].
  - apply (session_input [] [] [] loops k0 cimage_default o k img); [constructor; exact E0|exact E1].
  - vm_compute in E0. injection E0 as <-. vm_compute in E1. injection E1 as _ _ <-. split.
    + exists 2, 0. split; [|lia]. exists (encode (IJump 0)), 0%N. split; [reflexivity|]. split; [reflexivity|].
      left. reflexivity.
    + eexists. exists 20. vm_compute. reflexivity.
Qed.
