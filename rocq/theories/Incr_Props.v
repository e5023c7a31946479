(** Incremental compilation: C13 and C14. *)
From Coq Require Import String.
From Verif Require Import Base Bytecode_Model Mem_Model Vm_Model Vm_Spec Ast_Model Syms_Model Codegen_Model Exprs_Model
  Top_Model Incr_Spec Incr_Proofs.
Local Open Scope string_scope.
Local Open Scope list_scope.
Local Open Scope nat_scope.

(** * C13 *)

Theorem C13_failure_changes_nothing : forall k img src o k' img',
  compile_more k img src = (o, k', img') -> o <> Compiled -> k' = k /\ img' = img.
Proof. exact compile_more_fails. Qed.
Print Assumptions C13_failure_changes_nothing.

(** The results of a whole sequence of inputs are those of the inputs that compiled: leaving the
    others out changes neither what the rest do nor what is left. *)
Theorem C13_only_accepted_inputs_matter : forall srcs k img os k' img',
  feed srcs k img = (os, k', img') ->
  feed (accepted srcs os) k img = (repeat Compiled (length (accepted srcs os)), k', img').
Proof. exact feed_accepted. Qed.
Print Assumptions C13_only_accepted_inputs_matter.

(** Three inputs: [a = 1], then [b = 2: c = "x" + 1], which does not compile although its first
    statement does, and then [b = "now text"], which would be refused were [b] left behind by
    the failed input. *)
Definition v_ (s : string) := mkVarRef (u s) None.
Definition in1 : source := ([StAssignment (v_ "a") (1, 1)%N (EInteger 1 (1, 5)%N)], None).
Definition in2 : source :=
  ([StAssignment (v_ "b") (1, 1)%N (EInteger 2 (1, 5)%N);
    StAssignment (v_ "c") (1, 8)%N
      (EBinary BAdd (EText (u "x") (1, 12)%N) (EInteger 1 (1, 18)%N) (1, 16)%N)], None).
Definition in3 : source := ([StAssignment (v_ "b") (1, 1)%N (EText (u "now text") (1, 5)%N)], None).
Definition k0 : compiler := mkCompiler (set_gen (emit IEof (0, 0)%N codegen_new) tctx_new) (enter_scope (gs_new [])).

Example C13_case :
  compiler_new [] [] = COk k0 /\
  (exists e, fst (fst (feed [in1; in2; in3] k0 cimage_default)) = [Compiled; Failed e; Compiled]) /\
  feed [in1; in3] k0 cimage_default =
    ([Compiled; Compiled], snd (fst (feed [in1; in2; in3] k0 cimage_default)),
     snd (feed [in1; in2; in3] k0 cimage_default)).
Proof.
  split; [vm_compute; reflexivity|]. split; [eexists; vm_compute; reflexivity|vm_compute; reflexivity].
Qed.

(** * C14 *)

Theorem C14_inputs_only_append : forall upcalls defs before k img srcs os k' img',
  session upcalls defs before k img -> feed srcs k img = (os, k', img') -> only_appended img img'.
Proof.
  intros * H F. exact (proj2 (feed_appended _ _ _ _ _ _ (session_synced _ _ _ _ _ H) F)).
Qed.
Print Assumptions C14_inputs_only_append.

(** What is replaced is the end marker. *)
Theorem C14_image_ends_with_the_end_marker : forall upcalls defs srcs k img,
  session upcalls defs srcs k img ->
  last (ci_code img) 0%N = encode IEof /\ 1 <= length (ci_code img) /\
  length (ci_instrs img) = length (ci_code img).
Proof. exact session_ends. Qed.
Print Assumptions C14_image_ends_with_the_end_marker.

(** A machine paused anywhere but at the end marker takes the same step after more input was
    compiled. *)
Theorem C14_paused_machine_continues : forall powf upcalls defs before k img srcs os k' img' c h,
  session upcalls defs before k img -> feed srcs k img = (os, k', img') ->
  S (c_pc c) < length (ci_code img) -> step powf (runnable img) c h <> RPanic ->
  step powf (runnable img') c h = step powf (runnable img) c h.
Proof.
  intros * H F L N. apply step_kept; auto.
  - eapply C14_inputs_only_append; eassumption.
  - apply (session_ends _ _ _ _ _ H).
Qed.
Print Assumptions C14_paused_machine_continues.

(** [a = 1] and then [b = "now text"]: the first instruction stays, the end marker moves and
    the text becomes constant 0. *)
Example C14_case :
  let r1 := feed [in1] k0 cimage_default in
  let r2 := feed [in3] (snd (fst r1)) (snd r1) in
  session [] [] [in1] (snd (fst r1)) (snd r1) /\
  ci_code (snd r1) = [encode (ILoadInteger 64 1); encode IEof] /\
  ci_code (snd r2) = [encode (ILoadInteger 64 1); encode (ILoadInteger 65 0); encode IEof] /\
  ci_constants (snd r2) = [CText (u "now text")] /\
  only_appended (snd r1) (snd r2).
Proof.
  cbv zeta.
  assert (H : session [] [] [in1] (snd (fst (feed [in1] k0 cimage_default))) (snd (feed [in1] k0 cimage_default))).
  { eapply (session_input [] [] [] in1 k0 cimage_default Compiled).
    - apply session_start. vm_compute. reflexivity.
    - vm_compute. reflexivity. }
  split; [exact H|]. split; [vm_compute; reflexivity|]. split; [vm_compute; reflexivity|].
  split; [vm_compute; reflexivity|].
  eapply (C14_inputs_only_append _ _ _ _ _ [in3] [Compiled]); [exact H|vm_compute; reflexivity].
Qed.
