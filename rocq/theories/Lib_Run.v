(** Calls of the library in programs. *)
From Coq Require Import String.
From Verif Require Import Base Bytecode_Model Mem_Model Num_Model Vm_Model Vm_Spec Ids_Model Ast_Model Syms_Model
  Codegen_Model Exprs_Model Top_Model Incr_Spec Args_Spec Eval_Spec Call_Spec Exec_Spec Program_Proofs User_Spec User_Proofs
  Exec_Props User_Props Host_Props Lib_Model Lib_Spec Lib_Proofs.
Local Open Scope list_scope.

Section Run.
Variable powf : N -> N -> N.
Context {W : Type}.
Variable does : doing W.
Variable names : list ustr.
Variable others : ustr -> list given -> env W -> res vm_error (option cdatum) -> env W -> Prop.
Variable upcall : N -> N -> nat -> image -> ctx -> heap -> W -> option (upcall_result W).
Variable defined : ustr -> definition -> Prop.
Variable up : list (ustr * callable_md).
Variable defs : list global_def.
Variable k : compiler.
Variable img : cimage.
Notation calls := (value_calls does names others).
Hypothesis LN : linked up defs upcall k img defined calls.

Lemma lib_statement n hidden x x' v p args md syn gs r w c m (s s1 : env W) :
  compiled_in up defs k img x [StCall v p args] x' -> stmt_fine (k_syms k) (StCall v p args) ->
  ready (runnable img) (k_syms k) hidden x c m s ->
  get_callable (ls_global (k_syms k)) (ascii_upper (vr_name v)) = Some md -> chosen md (length args) syn ->
  delivers powf (get_callable (ls_global (k_syms k))) (is_variable (k_syms k)) (linked_calls powf k defined calls (S n)) true s
    (wants syn args) (Ok gs) s1 ->
  only_values gs -> does (ascii_upper (vr_name v)) gs (world s1) r w ->
  match r with
  | Ok None => outcome_of powf upcall (runnable img) (k_syms k) hidden x' c m (mkEnv (vals s1) w) SigNormal
  | Ok (Some _) => True
  | Err msg => exists c' m', runs powf upcall (runnable img) c m c' m' /\
      (gives_up powf upcall (runnable img) c' m' \/ fails powf upcall (runnable img) c' m' (XUpcall msg) w)
  end.
Proof.
  intros CI FI R GC CH DE OV D. pose proof (Calls_does does names others _ gs s1 r w D) as C.
  rewrite <- (values_told (declared (k_syms k)) gs OV) in C.
  destruct r as [[d|]|msg]; [exact Logic.I| |]; cbn [as_result] in C.
  - eapply C63_command with (n := n); eassumption.
  - change w with (world (mkEnv (vals s1) w)). eapply C63_failing_command with (n := n); eassumption.
Qed.

Lemma lib_function n hidden x x' a p v q args md syn gs r w t c m (s s1 : env W) :
  compiled_in up defs k img x [StAssignment a p (ECall v q args)] x' -> stmt_fine (k_syms k) (StAssignment a p (ECall v q args)) ->
  ready (runnable img) (k_syms k) hidden x c m s ->
  get_callable (ls_global (k_syms k)) (ascii_upper (vr_name v)) = Some md -> chosen md (length args) syn ->
  delivers powf (get_callable (ls_global (k_syms k))) (is_variable (k_syms k)) (linked_calls powf k defined calls (S n)) false s
    (wants syn args) (Ok gs) s1 ->
  does (ascii_upper (vr_name v)) gs (world s1) r w ->
  declared (k_syms k) (ascii_upper (vr_name a)) = Some t ->
  match r with
  | Ok (Some d) => forall d', convert t d = Some (Ok d') ->
      outcome_of powf upcall (runnable img) (k_syms k) hidden x' c m (store (mkEnv (vals s1) w) (ascii_upper (vr_name a)) (Scalar d')) SigNormal
  | Ok None => True
  | Err msg => exists c' m', runs powf upcall (runnable img) c m c' m' /\
      (gives_up powf upcall (runnable img) c' m' \/ fails powf upcall (runnable img) c' m' (XUpcall msg) w)
  end.
Proof.
  intros CI FI R GC CH DE D T. pose proof (Calls_does does names others _ gs s1 r w D) as C.
  destruct r as [[d|]|msg]; [|exact Logic.I|]; cbn [as_result] in C.
  - intros d' CV. eapply C63_function with (n := n); eassumption.
  - change w with (world (mkEnv (vals s1) w)).
    refine (linked_alone_runs up defs powf upcall k img defined calls LN (S n) 0 hidden _ x x' c m s (mkEnv (vals s1) w) (SigError (XUpcall msg)) CI FI R _).
    eapply E_assign_fails; [exact T|]. apply Call_Spec.A_fails. eapply V_call_fails; [reflexivity|exact GC|exact CH|exact DE|]. left. exact C.
Qed.
End Run.
