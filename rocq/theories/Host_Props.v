(** Calls of functions and commands of the host: C63. *)
From Coq Require Import String.
From Verif Require Import Base Bytecode_Model Mem_Model Num_Model Vm_Model Vm_Spec Ids_Model Ast_Model Syms_Model
  Codegen_Model Exprs_Model Top_Model Incr_Spec Args_Spec Eval_Spec Eval_Props Call_Spec Host_Model Host_Case
  Exec_Spec Program_Proofs User_Spec User_Proofs Exec_Props User_Props.
Local Open Scope string_scope.
Local Open Scope list_scope.
Local Open Scope nat_scope.

(** A command of the host gets what its arguments give: values, converted to the declared types, in
    the order of the source; tags that tell what follows, where the declaration leaves a choice; and
    variables to change.  [wants] is what the declared form [syn] makes of the arguments.  The
    program goes on with what the command leaves. *)
Theorem C63_command : forall powf (W : Type) upcall defined host n hidden up defs k img x x' v p args md syn gs c m (s s1 s2 : env W),
  compiled_in up defs k img x [StCall v p args] x' -> linked up defs upcall k img defined host ->
  stmt_fine (k_syms k) (StCall v p args) -> ready (runnable img) (k_syms k) hidden x c m s ->
  get_callable (ls_global (k_syms k)) (ascii_upper (vr_name v)) = Some md -> chosen md (length args) syn ->
  delivers powf (get_callable (ls_global (k_syms k))) (is_variable (k_syms k)) (linked_calls powf k defined host (S n)) true s
    (wants syn args) (Ok gs) s1 ->
  host (ascii_upper (vr_name v)) (map (told (declared (k_syms k))) gs) s1 (Ok None) s2 ->
  outcome_of powf upcall (runnable img) (k_syms k) hidden x' c m s2 SigNormal.
Proof.
  intros * CI LN FI R A1 A2 A3 H. eapply linked_alone_runs with (d := 0); try eassumption.
  eapply E_call; [reflexivity|exact A1|exact A2|exact A3|]. left. exact H.
Qed.
Print Assumptions C63_command.

(** Its errors are those of the program. *)
Theorem C63_failing_command : forall powf (W : Type) upcall defined host n hidden up defs k img x x' v p args md syn gs c m (s s1 s2 : env W) e,
  compiled_in up defs k img x [StCall v p args] x' -> linked up defs upcall k img defined host ->
  stmt_fine (k_syms k) (StCall v p args) -> ready (runnable img) (k_syms k) hidden x c m s ->
  get_callable (ls_global (k_syms k)) (ascii_upper (vr_name v)) = Some md -> chosen md (length args) syn ->
  delivers powf (get_callable (ls_global (k_syms k))) (is_variable (k_syms k)) (linked_calls powf k defined host (S n)) true s
    (wants syn args) (Ok gs) s1 ->
  host (ascii_upper (vr_name v)) (map (told (declared (k_syms k))) gs) s1 (Err e) s2 ->
  exists c' m', runs powf upcall (runnable img) c m c' m' /\
    (gives_up powf upcall (runnable img) c' m' \/ fails powf upcall (runnable img) c' m' e (world s2)).
Proof.
  intros * CI LN FI R A1 A2 A3 H.
  change (outcome_of powf upcall (runnable img) (k_syms k) hidden x' c m s2 (SigError e)).
  eapply linked_alone_runs with (d := 0); try eassumption.
  eapply E_call_fails; [reflexivity|exact A1|exact A2|exact A3|]. left. exact H.
Qed.
Print Assumptions C63_failing_command.

(** An argument that fails is not followed by a call. *)
Theorem C63_failing_argument : forall powf (W : Type) upcall defined host n hidden up defs k img x x' v p args md syn c m (s s1 : env W) e,
  compiled_in up defs k img x [StCall v p args] x' -> linked up defs upcall k img defined host ->
  stmt_fine (k_syms k) (StCall v p args) -> ready (runnable img) (k_syms k) hidden x c m s ->
  get_callable (ls_global (k_syms k)) (ascii_upper (vr_name v)) = Some md -> chosen md (length args) syn ->
  delivers powf (get_callable (ls_global (k_syms k))) (is_variable (k_syms k)) (linked_calls powf k defined host n) true s
    (wants syn args) (Err e) s1 ->
  exists c' m', runs powf upcall (runnable img) c m c' m' /\
    (gives_up powf upcall (runnable img) c' m' \/ fails powf upcall (runnable img) c' m' e (world s1)).
Proof.
  intros * CI LN FI R A1 A2 A3.
  change (outcome_of powf upcall (runnable img) (k_syms k) hidden x' c m s1 (SigError e)).
  eapply linked_alone_runs with (d := 0); try eassumption.
  eapply E_argument_fails; [reflexivity|exact A1|exact A2|exact A3].
Qed.
Print Assumptions C63_failing_argument.

(** The value of a function of the host, assigned to a variable. *)
Theorem C63_function : forall powf (W : Type) upcall defined host n hidden up defs k img x x' w p v q args md syn gs r t r' c m (s s1 s2 : env W),
  compiled_in up defs k img x [StAssignment w p (ECall v q args)] x' -> linked up defs upcall k img defined host ->
  stmt_fine (k_syms k) (StAssignment w p (ECall v q args)) -> ready (runnable img) (k_syms k) hidden x c m s ->
  get_callable (ls_global (k_syms k)) (ascii_upper (vr_name v)) = Some md -> chosen md (length args) syn ->
  delivers powf (get_callable (ls_global (k_syms k))) (is_variable (k_syms k)) (linked_calls powf k defined host (S n)) false s
    (wants syn args) (Ok gs) s1 ->
  host (ascii_upper (vr_name v)) gs s1 (Ok (Some r)) s2 ->
  declared (k_syms k) (ascii_upper (vr_name w)) = Some t -> convert t r = Some (Ok r') ->
  outcome_of powf upcall (runnable img) (k_syms k) hidden x' c m (store s2 (ascii_upper (vr_name w)) (Scalar r')) SigNormal.
Proof.
  intros * CI LN FI R A1 A2 A3 H T CV. eapply linked_alone_runs with (n := S n) (d := 0); try eassumption.
  eapply E_assign; [reflexivity|exact T|]. eapply A_value; [|exact CV].
  eapply V_call; [reflexivity|exact A1|exact A2|exact A3|]. left. exact H.
Qed.
Print Assumptions C63_function.

(** Cases: [C22_case] and [C64_case] call commands and functions of [demo_host]; one that fails is
    [HALF(3)] in [x = HALF(3)]. *)
Example C63_case : forall powf, exists p img,
  p = [set_ "x" (call_ "half" (int_ 3))] /\ compile_new demo_upcalls [] (p, None) = (Compiled, img) /\
  exists c m w, runs powf (demo_host (ci_upcalls img)) (runnable img) (ctx_new 100) (mkMem (heap_new 10000) []) c m /\
    fails powf (demo_host (ci_upcalls img)) (runnable img) c m (XUpcall (u "Odd")) w /\ w = [].
Proof.
  intros powf. eexists _, _. split; [reflexivity|]. split; [vm_compute; reflexivity|].
  do 3 eexists. split; [eapply runs_step; [vm_compute; reflexivity|apply runs_refl]|].
  split; [eapply F_host; [left; vm_compute; reflexivity|vm_compute; reflexivity|vm_compute; reflexivity]|vm_compute; reflexivity].
Qed.

(** * The register of a result *)

Fixpoint steps (powf : N -> N -> N) (img : image) (n : nat) (c : ctx) (h : heap) : option (ctx * heap) :=
  match n with
  | O => Some (c, h)
  | S n => match step powf img c h with RNext c' h' => steps powf img n c' h' | _ => None end
  end.
Lemma steps_run {W} powf upcall img n : forall c h (w : W) c' h', steps powf img n c h = Some (c', h') ->
  runs powf upcall img c (mkMem h w) c' (mkMem h' w).
Proof.
  induction n as [|n IH]; cbn [steps]; intros c h w c' h' E.
  - injection E as -> ->. apply runs_refl.
  - destruct (step powf img c h) as [c1 h1| |] eqn:E1; try discriminate E. eapply runs_step; [exact E1|]. apply IH. exact E.
Qed.

(** [1 + (1 + (... + LAST))] with [n] additions. *)
Fixpoint deep (n : nat) : expr := match n with O => var_ "last" | S n => bin_ BAdd (int_ 1) (deep n) end.

(** A function without arguments leaves its value in the register where the expression needs it,
    and that may be one that the machine has not made room for: then the host crashes on storing
    the value.  Here [x = 1 + (1 + (... + LAST))] with 191 additions. *)
Theorem C63_result_register_refuted : exists p img,
  p = [set_ "x" (deep 191)] /\ compile_new demo_upcalls [] (p, None) = (Compiled, img) /\
  forall powf upcall, exists c m idx first pc c1 h1,
    runs powf upcall (runnable img) (ctx_new 100) (mkMem (heap_new 10000) tt) c m /\
    asks powf (runnable img) c m idx first pc c1 h1 /\
    nth_error (ci_upcalls img) (N.to_nat idx) = Some (u "LAST") /\
    forall v, scope_return c1 first v = None.
Proof.
  eexists _, _. split; [reflexivity|]. split; [vm_compute; reflexivity|]. intros powf upcall.
  do 7 eexists. split; [apply (steps_run powf upcall _ 191); vm_compute; reflexivity|]. split; [left; vm_compute; reflexivity|].
  split; [vm_compute; reflexivity|]. intros v. vm_compute. reflexivity.
Qed.
Print Assumptions C63_result_register_refuted.
