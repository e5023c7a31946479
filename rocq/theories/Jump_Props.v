(** GOTO, GOSUB and RETURN: C66. *)
From Coq Require Import String.
From Verif Require Import Base Bytecode_Model Bytecode_Spec Mem_Model Mem_Spec Num_Model
  Vm_Model Vm_Spec Ids_Model Ids_Spec Ids_Proofs Ast_Model Syms_Model Codegen_Model Codegen_Proofs Exprs_Model
  Top_Model Incr_Spec Args_Spec Eval_Spec Eval_Proofs Eval_Props Call_Spec Host_Model Host_Case Exec_Spec Exec_Proofs
  Jump_Proofs Program_Proofs User_Spec User_Proofs Exec_Props.
Local Open Scope string_scope.
Local Open Scope list_scope.
Local Open Scope nat_scope.

(** GOTO gets to the code of the label of that name, in upper or lower case, before or after it in
    the program or in an earlier input of the session, and changes nothing.  [xl] is the compiler
    at the label. *)
Theorem C66_goto : forall powf (W : Type) upcall defined host hidden up defs k img xl xl' label lp xg xg' name p c m (s : env W),
  linked up defs upcall k img defined host ->
  compiled_in up defs k img xl [StLabel label lp] xl' -> compiled_in up defs k img xg [StGoto name p] xg' ->
  ascii_upper name = ascii_upper label -> ready (runnable img) (k_syms k) hidden xg c m s ->
  exists c', runs powf upcall (runnable img) c m c' m /\ c_pc c' = s_pc xl /\ c_regs c' = c_regs c /\ same_frame c c'.
Proof. intros * LN CL CG E R. eapply goto_lands; try eassumption. eapply linked_scope, LN. Qed.
Print Assumptions C66_goto.

(** GOSUB runs from the label on, with jumps to labels of the same block and with further GOSUBs,
    one within another at most [d] deep; if that gets to a RETURN, it goes on after the GOSUB.
    Variables that had no value before are forgotten, as they are between two iterations of a
    loop: [iterate]. *)
Theorem C66_gosub : forall powf (W : Type) upcall defined host n d hidden up defs k img l0 s0 x x' name p c m (s s1 : env W),
  around up defs k img hidden l0 s0 -> compiled_in up defs k img x [StGosub name p] x' ->
  linked up defs upcall k img defined host -> ready (runnable img) (k_syms k) hidden x c m s ->
  exec_jumps_in powf (k_syms k) (linked_calls powf k defined host n) (linked_subs powf k defined host n d s0 l0) s0 l0
    s (SigGoto (ascii_upper name)) s1 SigReturn ->
  outcome_of powf upcall (runnable img) (k_syms k) hidden x' c m (iterate (is_shared (k_syms k)) s s1) SigNormal.
Proof.
  intros * AR CI LN R J. eapply (linked_stmt_runs up defs powf upcall k img defined host LN n (S d)); try eassumption.
  - intros e o O. inversion O.
  - apply E_gosub. split; [left; reflexivity|exact J].
Qed.
Print Assumptions C66_gosub.

(** An error on the way is an error of the GOSUB. *)
Theorem C66_failing_gosub : forall powf (W : Type) upcall defined host n d hidden up defs k img l0 s0 x x' name p c m (s s1 : env W) e,
  around up defs k img hidden l0 s0 -> compiled_in up defs k img x [StGosub name p] x' ->
  linked up defs upcall k img defined host -> ready (runnable img) (k_syms k) hidden x c m s ->
  exec_jumps_in powf (k_syms k) (linked_calls powf k defined host n) (linked_subs powf k defined host n d s0 l0) s0 l0
    s (SigGoto (ascii_upper name)) s1 (SigError e) ->
  exists c' m', runs powf upcall (runnable img) c m c' m' /\
    (gives_up powf upcall (runnable img) c' m' \/ fails powf upcall (runnable img) c' m' e (world s1)).
Proof.
  intros * AR CI LN R J. change (outcome_of powf upcall (runnable img) (k_syms k) hidden x' c m s1 (SigError e)).
  eapply (linked_stmt_runs up defs powf upcall k img defined host LN n (S d)); try eassumption.
  - intros e' o O. inversion O.
  - apply E_gosub_fails. split; [right; eexists; reflexivity|exact J].
Qed.
Print Assumptions C66_failing_gosub.

(** A RETURN without a GOSUB, or a call, that awaits it fails. *)
Theorem C66_return_without_gosub : forall powf (W : Type) upcall defined host hidden up defs k img x x' p c m (s : env W),
  linked up defs upcall k img defined host -> compiled_in up defs k img x [StReturn p] x' ->
  ready (runnable img) (k_syms k) hidden x c m s -> c_stack c = [] ->
  exists c', runs powf upcall (runnable img) c m c' m /\ fails powf upcall (runnable img) c' m XReturn (world s).
Proof. intros * LN CI R ST. eapply return_fails; try eassumption. eapply linked_scope, LN. Qed.
Print Assumptions C66_return_without_gosub.

(** * A case *)

(** With the commands of [demo_host]:
<<
@again
i = i + 1
GOSUB @show
IF i > 1 THEN END i
GOTO @Again
@show
OUT i
RETURN
>>
    where [i] is zero at first. *)
Definition again_ : list stmt :=
  [ set_ "i" (bin_ BAdd (var_ "i") (int_ 1)); StGosub (u "show") at_;
    StIf [(bin_ BGreater (var_ "i") (int_ 1), [end_ (var_ "i")])]; StGoto (u "Again") at_; StLabel (u "show") at_;
    StCall (v_ "out") at_ [(Some (var_ "i"), SepEnd, at_)]; StReturn at_ ].
Definition p66 : list stmt := set_ "i" (int_ 0) :: StLabel (u "again") at_ :: again_.
Definition k66 : compiler := snd (fst (compile_more k22 cimage_default (p66, None))).
Definition img66 : cimage := snd (compile_more k22 cimage_default (p66, None)).
Definition y66 : sst := match compile_stmts p66 x22 with COk x => x | _ => x22 end.

Lemma upcalls66 : gs_upcalls (ls_global (k_syms k66)) = demo_upcalls /\ gs_user (ls_global (k_syms k66)) = [] /\
  gs_vars (ls_global (k_syms k66)) = [].
Proof. vm_compute. auto. Qed.
Example linked66 : linked demo_upcalls [] (demo_host (ci_upcalls img66)) k66 img66 (fun _ _ => False) demo_calls.
Proof.
  destruct upcalls66 as (GP & GU & GV). apply linked_nothing. split.
  - intros k. right. rewrite GV. reflexivity.
  - split.
    + intros k md. rewrite GU. discriminate.
    + intros k md. rewrite GP. apply demo_names.
    + intros k md _. rewrite GV. reflexivity.
    + intros k md t n i. unfold get_callable. rewrite GU, GP. intros E.
      destruct (demo_names _ _ E) as [_ [->|[->| ->]]]; intros A; vm_compute in A; discriminate A.
  - rewrite GP. apply demo_obeys.
  - intros k gs s r s'. rewrite GP. intros []; vm_compute; discriminate.
Qed.
Lemma compiled66 : compiled_in demo_upcalls [] k66 img66 x22 p66 y66.
Proof.
  eapply (compiled_now demo_upcalls [] [] k22 cimage_default [] p66 []); [apply session_start; reflexivity| |reflexivity|];
    vm_compute; reflexivity.
Qed.
Lemma fine66 : Forall (stmt_fine (k_syms k66)) p66.
Proof.
  destruct upcalls66 as (GP & GU & GV). apply Forall_forall. intros st I e o O. split.
  - cbn [p66 again_ In] in I. repeat (destruct I as [<-|I]; [occ; vm_compute; repeat split; try exact Logic.I; discriminate|]). destruct I.
  - intros v _. split.
    + intros w q _ (md & E & U). unfold get_callable in E. rewrite GU, GP in E. apply demo_names in E as [E _]. congruence.
    + left. unfold is_shared, contains_global. rewrite GV. reflexivity.
Qed.

Lemma lands66 before s : (forall k, ustr_eqb (u "I") k = false -> vals s k = None) -> incl before p66 ->
  In (set_ "i" (int_ 0)) before -> lands (W := list Z) (is_shared (k_syms k66)) (mkEnv (fun _ => None) []) before s s.
Proof.
  intros H IN I. split; [reflexivity|]. intros k. cbv zeta. destruct (ustr_eqb (u "I") k) eqn:E.
  - left. split; [|reflexivity]. right. right. apply ustr_eqb_eq in E. subst k. apply Exists_exists. eexists. split; [exact I|]. apply I_assign. reflexivity.
  - right. split; [|apply H, E]. intros [A|[A|A]].
    + unfold is_shared, contains_global in A. rewrite (proj2 (proj2 upcalls66)) in A. discriminate A.
    + apply A. reflexivity.
    + apply Exists_exists in A as (st & J & A). apply IN in J. assert (K : k = u "I"); [|subst k; vm_compute in E; discriminate E].
      cbn [p66 again_ In] in J. repeat (destruct J as [<-|J]; [inversion A; subst; clear A; try (vm_compute; reflexivity)|]); [|destruct J].
      exfalso. match goal with B : In (_, ?b) _, C : In ?st ?b, D : introduces k ?st |- _ =>
        destruct B as [B|[]]; apply pair_inj in B as [_ <-]; destruct C as [<-|[]]; inversion D end.
Qed.
Ltac lands_ := apply lands66;
  [intros k E; unfold iterate; cbn [vals store]; change (ascii_upper (vr_name (v_ "i"))) with (u "I"); rewrite ?E; try (destruct (is_shared _ k)); reflexivity
  |intros st J; cbn [In firstn again_ p66] in J |- *; intuition|cbn; auto].
Ltac out_ := eapply E_call; [reflexivity|vm_compute; reflexivity|choose_|eapply D_more; [apply G_plain; ev|apply D_none]|apply demo_out].
Ltac round_ :=
  eapply E_cons; [eapply E_assign; [reflexivity|vm_compute; reflexivity|ev]|];
  eapply E_cons;
  [ apply E_gosub; split; [left; reflexivity|];
    eapply (E_jump _ _ _ _ _ _ _ _ (set_ "i" (int_ 0) :: StLabel (u "again") at_ :: firstn 4 again_) (u "show") at_ (skipn 5 again_));
      [lands_|eapply E_cons; [out_|eapply E_cons_leaves; [apply E_return|discriminate]]|apply E_no_jump; intros; discriminate] | ].
Example C66_case : forall powf, exists s', world s' = [1; 2]%Z /\
  outcome_of powf (demo_host (ci_upcalls img66)) (runnable img66) (k_syms k66) (fun _ => None) y66 (ctx_new 100) (mkMem (heap_new 10000) []) s' (SigEnd 2).
Proof.
  intros powf. eexists. split; [|eapply C22_blocks_partial with (n := 0) (d := 1) (l0 := p66) (s0 := mkEnv (fun _ => None) []) (defined := fun _ _ => False) (host := demo_calls) (l := p66) (x := x22) (s := mkEnv (fun _ => None) [])].
  2:{ exists x22, y66, (ctx_new 100), (mkMem (heap_new 10000) []). split; [exact compiled66|]. split; [exact fine66|]. split; [reflexivity|]. apply new_holds. reflexivity. }
  2:{ exact compiled66. }
  2:{ exact linked66. }
  2:{ exact fine66. }
  2:{ split; [reflexivity|]. apply new_holds. reflexivity. }
  2:{ eapply E_block.
      - eapply E_cons; [eapply E_assign; [reflexivity|vm_compute; reflexivity|ev]|]. eapply E_cons; [apply E_label|].
        round_.
        eapply E_cons. { apply E_if. eapply E_other_branch; [ev|]. apply E_no_branch. }
        eapply E_cons_leaves; [apply E_goto|discriminate].
      - eapply (E_jump _ _ _ _ _ _ _ _ [set_ "i" (int_ 0)] (u "again") at_ again_); [lands_| |apply E_no_jump; intros; discriminate].
        round_.
          eapply E_cons_leaves; [|discriminate]. apply E_if. eapply E_branch; [ev|]. straight_.
          eapply E_cons_leaves; [eapply (E_end_code _ _ _ _ _ _ _ _ _ _ 2); [ev|lia]|discriminate]. }
  vm_compute. reflexivity.
Qed.

Definition to_ (n : nat) : sst := match compile_stmts (firstn n p66) x22 with COk x => x | _ => x22 end.
Example C66_goto_case : forall powf hidden c m s, ready (runnable img66) (k_syms k66) hidden (to_ 5) c m s ->
  exists c', runs powf (demo_host (ci_upcalls img66)) (runnable img66) c m c' m /\ c_pc c' = s_pc (to_ 1) /\ c_regs c' = c_regs c /\ same_frame c c'.
Proof.
  intros * R. eapply (C66_goto powf _ _ _ _ hidden demo_upcalls [] k66 img66 (to_ 1) (to_ 2) (u "again") at_ (to_ 5) (to_ 6) (u "Again") at_ c m s); [exact linked66| | |reflexivity|exact R].
  - eapply (compiled_now demo_upcalls [] [] k22 cimage_default (firstn 1 p66) [StLabel (u "again") at_] (skipn 2 p66)); [apply session_start; reflexivity| | |];
      vm_compute; reflexivity.
  - eapply (compiled_now demo_upcalls [] [] k22 cimage_default (firstn 5 p66) [StGoto (u "Again") at_] (skipn 6 p66)); [apply session_start; reflexivity| | |];
      vm_compute; reflexivity.
Qed.
