(** GOTO, and RETURN without GOSUB: the proofs. *)
From Verif Require Import Base Bytecode_Model Bytecode_Spec Mem_Model Mem_Spec Num_Model
  Vm_Model Vm_Spec Ids_Model Ids_Spec Ids_Proofs Ast_Model Syms_Model Codegen_Model Codegen_Proofs Exprs_Model
  Top_Model Incr_Spec Args_Spec Eval_Spec Eval_Proofs Call_Spec Run_Proofs Call_Proofs Exec_Spec Exec_Proofs Top_Proofs Layout_Proofs Flow_Proofs
  Stmt_Proofs Program_Proofs User_Spec User_Proofs.
Local Open Scope list_scope.
Local Open Scope nat_scope.

Lemma linked_scope up defs {W} (upcall : N -> N -> nat -> image -> ctx -> heap -> W -> option (upcall_result W)) k img defined host :
  linked up defs upcall k img defined host ->
  forall idx first pc c c' h w, c_regs c = c_regs c' -> c_fp c = c_fp c' ->
    upcall idx first pc (runnable img) c h w = upcall idx first pc (runnable img) c' h w.
Proof. intros LN. apply (ob_scope _ _ _ _ _ _ (ho_obeys _ _ _ _ (ln_main _ _ _ _ _ _ _ LN))). Qed.

Section Jumps.
Variable powf : N -> N -> N.
Context {W : Type}.
Variable upcall : N -> N -> nat -> image -> ctx -> heap -> W -> option (upcall_result W).
Variable up : list (ustr * callable_md).
Variable defs : list global_def.
Variable k : compiler.
Variable img : cimage.
Hypothesis scope : forall idx first pc c c' h w, c_regs c = c_regs c' -> c_fp c = c_fp c' ->
  upcall idx first pc (runnable img) c h w = upcall idx first pc (runnable img) c' h w.

Lemma label_placed xl xl' label lp : compiled_in up defs k img xl [StLabel label lp] xl' ->
  assoc (g_labels (t_gen (k_ctx k))) (ascii_upper label) = Some (s_pc xl).
Proof.
  intros CI. apply (compiled_labels _ _ _ _ _ _ _ CI). destruct (compiled_has _ _ _ _ _ _ _ CI) as (_ & _ & _ & C & _).
  cbn [compile_stmts] in C. apply bind_ok in C as (y & C & E). apply COk_inj in E. subst y.
  rewrite compile_stmt_eq in C. apply bind_ok in C as (y & C & E). apply COk_inj in E. subst xl'. rewrite mark_labels.
  unfold compile_label in C. unfold define_label in C. destruct (assoc (g_labels _) _); [discriminate C|]. apply COk_inj in C. subst y.
  unfold s_gen, set_gen. cbn [fst t_gen g_labels]. rewrite assoc_insert_get, ustr_eqb_refl. reflexivity.
Qed.

Lemma goto_lands hidden xl xl' label lp xg xg' name p c (m : mem W) (s : env W) :
  compiled_in up defs k img xl [StLabel label lp] xl' -> compiled_in up defs k img xg [StGoto name p] xg' ->
  ascii_upper name = ascii_upper label -> ready (runnable img) (k_syms k) hidden xg c m s ->
  exists c', runs powf upcall (runnable img) c m c' m /\ c_pc c' = s_pc xl /\ c_regs c' = c_regs c /\ same_frame c c'.
Proof.
  intros CL CG EN [PC HD]. pose proof (label_placed _ _ _ _ CL) as LA. rewrite <- EN in LA.
  destruct (compiled_has _ _ _ _ _ _ _ CG) as (HS & _ & _ & C & _). destruct (compiled_session _ _ _ _ _ _ _ CG) as [srcs SE].
  cbn [compile_stmts] in C. apply bind_ok in C as (y & C & E). apply COk_inj in E. subst y.
  rewrite compile_stmt_eq in C. apply bind_ok in C as (y & C & E). apply COk_inj in E, C.
  destruct (proj1 (ld_gotos _ _ _ _ _ (has_load _ _ _ _ _ _ HS) (s_pc xg) name)) as (t & ET & F).
  { subst xg'. rewrite (proj2 (mark_gen _ _ _)). subst y. apply fixup_in. }
  cbn [entry_of] in ET. change (symkey name) with (ascii_upper name) in ET.
  assert (NT : N.to_nat t = s_pc xl) by congruence.
  rewrite <- PC in F. pose proof (step_at powf (runnable img) (set_yield c false) m _ eq_refl F) as ST. cbn [dispatch] in ST.
  destruct (catch_up powf (runnable img) upcall scope (set_yield c false) m c _ (session_meta _ _ _ _ _ SE) eq_refl eq_refl ST) as (d1 & R1 & Q1 & S1); [discriminate|].
  destruct (step powf (runnable img) d1 m) as [c2 h2| |] eqn:S2; cbn [req] in S1; try contradiction. destruct S1 as [Q2 ->].
  exists c2. split.
  { eapply runs_trans; [exact R1|]. eapply runs_step; [exact S2|]. destruct m; apply runs_refl. }
  unfold yeq in Q2. assert (J : set_yield c2 false = set_pc (set_yield c false) (s_pc xl)).
  { rewrite Q2. unfold jump_to. rewrite NT. destruct (_ <=? _); reflexivity. }
  destruct c2, c. cbn in *. injection J as -> -> -> -> -> ->. repeat split.
Qed.

Lemma return_fails hidden x x' p c (m : mem W) (s : env W) : compiled_in up defs k img x [StReturn p] x' ->
  ready (runnable img) (k_syms k) hidden x c m s -> c_stack c = [] ->
  exists c', runs powf upcall (runnable img) c m c' m /\ fails powf upcall (runnable img) c' m XReturn (world s).
Proof.
  intros CG [PC HD] EM.
  destruct (compiled_has _ _ _ _ _ _ _ CG) as (HS & _ & _ & C & _). destruct (compiled_session _ _ _ _ _ _ _ CG) as [srcs SE].
  cbn [compile_stmts] in C. apply bind_ok in C as (y & C & E). apply COk_inj in E. subst y.
  rewrite compile_stmt_eq in C. apply bind_ok in C as (y & C & E). apply COk_inj in E, C.
  assert (F : fetched (runnable img) (s_pc x) IReturn).
  { eapply has_at; [exact HS|subst x'; rewrite mark_code; subst y; apply (emit_at IReturn p (s_gen x))|discriminate|apply le_n]. }
  rewrite <- PC in F. pose proof (step_at powf (runnable img) (set_yield c false) m _ eq_refl F) as ST. cbn [dispatch] in ST.
  unfold do_return in ST. cbn [set_yield c_stack] in ST. rewrite EM in ST.
  destruct (catch_up powf (runnable img) upcall scope (set_yield c false) m c _ (session_meta _ _ _ _ _ SE) eq_refl eq_refl ST) as (d1 & R1 & Q1 & S1); [discriminate|].
  exists d1. split; [exact R1|]. unfold set_exception in S1.
  destruct (step powf (runnable img) d1 m) as [| |] eqn:S2; cbn [req] in S1; try contradiction. destruct S1 as (-> & _).
  rewrite <- (hd_world _ _ _ _ _ _ _ _ HD). eapply F_machine. exact S2.
Qed.
End Jumps.
