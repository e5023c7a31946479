(** Proofs about the machine of the standard library. *)
From Coq Require Import String.
From Verif Require Import Base Bytecode_Model Mem_Model Mem_Spec Mem_Proofs Num_Model Vm_Model Vm_Spec Vm_Proofs Ids_Model Ast_Model Syms_Model Codegen_Model Exprs_Model
  Top_Model Incr_Spec Incr_Proofs Strings_Model Eval_Spec Call_Spec Exec_Spec User_Spec Run_Proofs Call_Proofs Exec_Proofs Stmt_Proofs Steady_Proofs Eval_Proofs Program_Proofs User_Proofs
  Lex_Model Parse_Model Stmts_Model Stmts_Spec Stmts_Props Machine_Model Machine_Spec.
Local Open Scope string_scope.
Local Open Scope list_scope.
Local Open Scope nat_scope.

Lemma dispatch_no_yield powf img c h i c' h' : Vm_Model.dispatch powf img c h i = RStop SYield c' h' -> False.
Proof.
  destruct i as [o d a b|o r|d t|d p f|reg tg|tg|tg|r tg|d i|d i|d t r|d s0| | |m tg|i r|i r|]; cbn [Vm_Model.dispatch];
    unfold set_exception, do_return, set_exception;
    [destruct o; cbn [do_op3]; unfold do_binary_double_op, do_binary_double_predicate_op, do_binary_integer_op,
      do_binary_integer_predicate_op, do_binary_boolean_op, do_binary_text_op, do_concat, do_load_array, do_store_array, set_exception
    |destruct o; cbn [do_op1]; unfold set_exception| |unfold do_alloc_array, set_exception; cbv zeta|..];
  repeat match goal with |- (match ?q with _ => _ end) = _ -> _ => destruct q end; intros E; discriminate E.
Qed.

Section Machine.
Variable powf : N -> N -> N.
Variable alnum numeric : N -> bool.
Variable uc : N -> list N.
Variable show_msg : parse_msg -> ustr.
Context {W : Type}.
Variable host : list ustr -> N -> N -> nat -> image -> ctx -> heap -> W -> option (upcall_result W).
Variable callables : list (ustr * callable_md).
Variable global_defs : list global_def.
Variable o : outside W.
Local Notation loop := (machine_loop powf alnum numeric uc show_msg host callables global_defs o).
Local Notation after := (after_stop alnum numeric uc show_msg host callables global_defs o).
Local Notation vexec := (Vm_Model.vm_exec powf W).
Local Notation vturn := (Vm_Model.vm_turn powf W).
Local Notation runs := (Call_Spec.runs powf).
Local Notation step := (Vm_Model.step powf).

Definition ends (running : bool) (m : machine) (x : exec_end) : Prop := exists fuel, loop fuel running m = Some x.

Lemma loop_mono n : forall k running m x, loop n running m = Some x -> n <= k -> loop k running m = Some x.
Proof.
  induction n as [|n IH]; intros k running m x H L; [discriminate|]. destruct k as [|k]; [lia|].
  cbn [machine_loop] in *. destruct (vexec _ (S n) _ _) as [r|] eqn:E; [|discriminate].
  rewrite (vm_exec_mono _ _ _ _ _ (S k) _ _ E ltac:(lia)).
  unfold after_stop in *. destruct r as [r v|]; [|exact H]. cbv zeta in *. destruct r; auto.
  - destruct (invoke _ _ _ _) as [[v' f]|]; [|exact H]. destruct (should_stop _ _) as [m' b]. destruct b; [exact H|].
    destruct f as [[p e]|]; [exact H|]. destruct (drain_actions _ _ _ _ _ _ _ _) as [[m'' [ran|e]]|]; auto. apply IH; [exact H|lia].
  - destruct (should_stop _ _) as [m' b]. destruct b; [exact H|]. apply IH; [exact H|lia].
Qed.

(** The machine stops with [x], and the loop goes on from there. *)
Lemma ends_stop running m x y : vm_runs powf (upcall_of host m) (runnable (mc_image m)) (mc_vm m) x ->
  (exists n, after (loop n) running m x = Some y) -> ends running m y.
Proof.
  intros [f V] [n A]. exists (S (Nat.max f n)). cbn [machine_loop].
  rewrite (vm_exec_mono _ _ _ _ _ (S (Nat.max f n)) _ _ V ltac:(lia)).
  revert A. unfold after_stop. destruct x as [r v|]; [|auto]. cbv zeta. destruct r; auto.
  - destruct (invoke _ _ _ _) as [[v' g]|]; [|auto]. destruct (should_stop _ _) as [m' b]. destruct b; [auto|].
    destruct g as [[p e]|]; [auto|]. destruct (drain_actions _ _ _ _ _ _ _ _) as [[m'' [ran|e]]|]; auto. intros H. eapply loop_mono; [exact H|lia].
  - destruct (should_stop _ _) as [m' b]. destruct b; [auto|]. intros H. eapply loop_mono; [exact H|lia].
Qed.

(** If the machine in [v] does as in [v'], so does the loop. *)
Lemma ends_same running m v' y : (forall x, vm_runs powf (upcall_of host m) (runnable (mc_image m)) v' x ->
    vm_runs powf (upcall_of host m) (runnable (mc_image m)) (mc_vm m) x) ->
  ends running (set_vm m v') y -> ends running m y.
Proof.
  intros V [n H]. destruct n as [|n]; [discriminate|]. cbn [machine_loop] in H.
  destruct (vexec _ (S n) _ _) as [x|] eqn:E; [|discriminate].
  apply ends_stop with (x := x); [apply V; exists (S n); exact E|]. exists n. destruct m; exact H.
Qed.

Definition put (m : machine) (c : ctx) (h : heap) (w : W) : machine :=
  set_vm m (mkVm W c h (v_last_error W (mc_vm m)) None w).

Section Run.
Variable m0 : machine (W := W).
Local Notation up := (host (ci_upcalls (mc_image m0))).
Local Notation img := (runnable (mc_image m0)).
Local Notation at_ c h w := (put m0 c h w).

Lemma turn_stop c (h : heap) (w : W) s c' h' le : step img c h = RStop s c' h' ->
  forall n, Vm_Model.ctx_exec powf (S n) img c h = Some (RStop s c' h') /\
  vturn up (S n) img (mkVm W c h le None w) = vturn up 1 img (mkVm W c h le None w).
Proof.
  intros E n. cbn [Vm_Model.ctx_exec]. rewrite E. split; [reflexivity|].
  unfold Vm_Model.vm_turn. cbn [v_pending v_ctx v_heap Vm_Model.ctx_exec]. rewrite E. reflexivity.
Qed.

Lemma calmly_back c (m : mem W) c' m' running y : calmly powf host o m0 c m c' m' ->
  ends running (at_ c' m' (m_world m')) y -> ends running (at_ c m (m_world m)) y.
Proof.
  induction 1 as [c m|c m c1 h1 c2 m2 E R IH|c m c1 h1 c2 m2 E Q R IH|c m idx first pc c1 h1 r c2 m2 A U F Q R IH]; intros H; [exact H| | |].
  - specialize (IH H).
    eapply ends_same; [|exact IH]. intros x [n V]. destruct n as [|n]; [discriminate|]. exists (S (S n)).
    cbn [Vm_Model.vm_exec] in V. cbn [put set_vm mc_vm mc_image] in *.
    assert (T : forall k, vturn (upcall_of host m0) (S (S k)) img (mkVm W c m (v_last_error W (mc_vm m0)) None (m_world m)) =
      vturn (upcall_of host m0) (S k) img (mkVm W c1 h1 (v_last_error W (mc_vm m0)) None (m_world m))).
    { intros k. unfold Vm_Model.vm_turn. cbn [v_pending v_ctx v_heap v_last_error v_world].
      change (Vm_Model.ctx_exec powf (S (S k)) img c m) with
        (match step img c m with RNext c' h' => Vm_Model.ctx_exec powf (S k) img c' h' | r => Some r end).
      rewrite E. reflexivity. }
    change (match vturn (upcall_of host m0) (S (S n)) img (mkVm W c m (v_last_error W (mc_vm m0)) None (m_world m)) with
      | Some (inl v') => vexec (upcall_of host m0) (S n) img v' | Some (inr r) => Some r | None => None end = Some x).
    rewrite T. cbn [m_heap m_world] in V.
    change (match vturn (upcall_of host m0) (S n) img (mkVm W c1 h1 (v_last_error W (mc_vm m0)) None (m_world m)) with
      | Some (inl v') => vexec (upcall_of host m0) n img v' | Some (inr r) => Some r | None => None end = Some x) in V.
    destruct (vturn _ _ _ _) as [[v'|r]|]; [|exact V|exact V]. eapply vm_exec_mono; [exact V|lia].
  - specialize (IH H). destruct IH as [n IH].
    destruct Q as (QR & _ & QY).
    eapply ends_stop with (x := VStop W VYield (mkVm W c1 h1 (v_last_error W (mc_vm m0)) None (m_world m))).
    + exists 1. cbn [Vm_Model.vm_exec]. unfold Vm_Model.vm_turn. cbn [put set_vm mc_vm mc_image v_pending v_ctx v_heap Vm_Model.ctx_exec].
      rewrite E. reflexivity.
    + exists n. unfold after_stop. cbv zeta. unfold should_stop, machine_world, set_world. cbn [put set_vm mc_vm mc_image mc_compiler v_world vm_set_world].
      rewrite QY, QR. exact IH.
  - specialize (IH H). destruct A as [A|A].
    + eapply ends_same; [|exact IH]. intros x [n V]. exists (S n). cbn [Vm_Model.vm_exec].
      unfold Vm_Model.vm_turn at 1. cbn [put set_vm mc_vm mc_image v_pending v_ctx v_heap v_last_error v_world Vm_Model.ctx_exec].
      rewrite A. unfold run_upcall. cbn [v_ctx v_heap v_world v_last_error v_pending]. change (upcall_of host _) with up. rewrite U, F. exact V.
    + destruct IH as [n IH].
      eapply ends_stop with (x := VStop W VUpcallAsync (mkVm W c1 h1 (v_last_error W (mc_vm m0)) (Some (idx, first, pc)) (m_world m))).
      * exists 1. cbn [Vm_Model.vm_exec]. unfold Vm_Model.vm_turn. cbn [put set_vm mc_vm mc_image v_pending v_ctx v_heap Vm_Model.ctx_exec].
        rewrite A. reflexivity.
      * exists n. destruct Q as (QR & QA & _).
        unfold after_stop. cbv zeta. unfold invoke. cbn [v_pending v_ctx v_heap v_last_error v_world]. unfold run_upcall.
        cbn [v_ctx v_heap v_world v_last_error v_pending]. change (upcall_of host _) with up. change (runnable (mc_image (set_vm _ _))) with img.
        rewrite U, F. unfold should_stop, machine_world. cbn [put set_vm mc_vm mc_image mc_compiler v_world]. rewrite QR.
        unfold drain_actions, machine_world, set_world, vm_set_world. cbn [put set_vm mc_vm mc_image mc_compiler v_world v_ctx v_heap v_last_error v_pending].
        rewrite QA. cbn [apply_actions]. rewrite orb_false_r. exact IH.
Qed.

Lemma runs_calmly c (m : mem W) c' m' : runs up img c m c' m' ->
  (forall c1 m1, runs up img c m c1 m1 -> calm o (m_world m1)) -> calmly powf host o m0 c m c' m'.
Proof.
  induction 1 as [c m|c m c1 h1 c2 m2 E R IH|c m c1 h1 c2 m2 E R IH|c m idx first pc c1 h1 r c2 m2 A U F R IH]; intros Q.
  - constructor.
  - eapply calmly_step; [exact E|]. apply IH. intros c3 m3 X. apply (Q c3). eapply runs_step; eassumption.
  - eapply calmly_yield; [exact E|apply (Q c), runs_refl|]. apply IH. intros c3 m3 X. apply (Q c3). eapply runs_yield; eassumption.
  - eapply calmly_host; [exact A|exact U|exact F| |].
    + apply (Q (set_regs c1 (u_regs W r)) (mkMem (u_heap W r) (u_world W r))). eapply runs_host; [exact A|exact U|exact F|apply runs_refl].
    + apply IH. intros c3 m3 X. apply (Q c3). eapply runs_host; eassumption.
Qed.

(** The three ends. *)
Lemma eof_ends c (h : heap) (w : W) running c' h' : step img c h = RStop SEof c' h' ->
  ends running (at_ c h w) (leave_loop running (at_ c' h' w) (Ok None)).
Proof.
  intros E. eapply ends_stop with (x := VStop W VEof (mkVm W c' h' (v_last_error W (mc_vm m0)) None w)).
  - exists 1. cbn [Vm_Model.vm_exec]. unfold Vm_Model.vm_turn. cbn [put set_vm mc_vm mc_image v_pending v_ctx v_heap Vm_Model.ctx_exec]. rewrite E. reflexivity.
  - exists 0. reflexivity.
Qed.
Lemma end_ends c (h : heap) (w : W) code c' h' running y : step img c h = RStop (SEnd code) c' h' ->
  after (fun _ _ => None) running (at_ c h w) (VStop W (VEnd code) (mkVm W (park_at_eof img c') h' (v_last_error W (mc_vm m0)) None w)) = Some y ->
  ends running (at_ c h w) y.
Proof.
  intros E A. eapply ends_stop with (x := VStop W (VEnd code) (mkVm W (park_at_eof img c') h' (v_last_error W (mc_vm m0)) None w)).
  - exists 1. cbn [Vm_Model.vm_exec]. unfold Vm_Model.vm_turn. cbn [put set_vm mc_vm mc_image v_pending v_ctx v_heap Vm_Model.ctx_exec]. rewrite E. reflexivity.
  - exists 0. exact A.
Qed.
Lemma fail_ends c (m : mem W) running e w : length (i_code img) <= length (i_meta img) -> c_handler c = HNone ->
  fails powf up img c m e w -> calm o w ->
  exists v pos, v_world W v = w /\ v_pending W v = None /\ c_pc (v_ctx W v) = length (i_code img) - 1 /\ ends running (at_ c m (m_world m)) (leave_loop running (set_vm m0 v) (Err (MeRuntime pos e))).
Proof.
  intros MC HN F Q. destruct F as [pc e c1 h1 E|idx first pc c1 h1 r p msg A U F].
  - destruct (Vm_Proofs.step_stop _ _ _ _ _ _ _ E) as [(X & _)|(i & (x & F & D) & X & _)]; [discriminate X|].
    destruct (dispatch_exception _ _ _ _ _ _ _ _ _ X) as (-> & -> & ->).
    destruct (nth_error (i_meta img) (c_pc c)) as [md|] eqn:M.
    2:{ apply nth_error_None in M. assert (c_pc c < length (i_code img)) by (apply nth_error_Some; congruence). lia. }
    exists (park W img (mkVm W c m (Some (m_pos md, e)) None (m_world m))), (m_pos md). split; [reflexivity|]. split; [reflexivity|]. split; [reflexivity|].
    eapply ends_stop with (x := VStop W (VException (m_pos md) e) (park W img (mkVm W c m (Some (m_pos md, e)) None (m_world m)))).
    + exists 1. cbn [Vm_Model.vm_exec]. unfold Vm_Model.vm_turn. cbn [put set_vm mc_vm mc_image v_pending v_ctx v_heap Vm_Model.ctx_exec]. rewrite E, M.
      unfold handle_exception. cbn [v_ctx]. rewrite HN. reflexivity.
    + exists 0. reflexivity.
  - assert (X : c_handler c1 = HNone /\ pc = c_pc c /\ pc < length (i_code img)).
    { destruct A as [A|A]; (destruct (Vm_Proofs.step_stop _ _ _ _ _ _ _ A) as [(X & _)|(i & (x & FE & D) & X & _)]; [discriminate X|]);
        (first [destruct (dispatch_upcall _ _ _ _ _ _ _ _ _ _ _ (or_introl eq_refl) X) as (-> & -> & ->)|destruct (dispatch_upcall _ _ _ _ _ _ _ _ _ _ _ (or_intror eq_refl) X) as (-> & -> & ->)]);
        (split; [exact HN|]); (split; [reflexivity|]); apply nth_error_Some; congruence. }
    destruct X as (HN1 & -> & LT).
    destruct (nth_error (i_meta img) (c_pc c)) as [md|] eqn:M; [|apply nth_error_None in M; lia].
    set (pos := match p with Some q => q | None => m_pos md end).
    set (v := mkVm W (set_regs c1 (u_regs W r)) (u_heap W r) (Some (pos, XUpcall msg)) None (u_world W r)).
    exists (park W img v), pos. split; [reflexivity|]. split; [reflexivity|]. split; [reflexivity|]. destruct A as [A|A].
    + eapply ends_stop with (x := VStop W (VException pos (XUpcall msg)) (park W img v)).
      * exists 1. cbn [Vm_Model.vm_exec]. unfold Vm_Model.vm_turn. cbn [put set_vm mc_vm mc_image v_pending v_ctx v_heap Vm_Model.ctx_exec]. rewrite A.
        unfold run_upcall. cbn [v_ctx v_heap v_world v_last_error v_pending]. change (upcall_of host _) with up. rewrite U, F, M.
        unfold handle_exception. cbn [v_ctx set_regs c_handler]. rewrite HN1. reflexivity.
      * exists 0. reflexivity.
    + eapply ends_stop with (x := VStop W VUpcallAsync (mkVm W c1 h1 (v_last_error W (mc_vm m0)) (Some (idx, first, c_pc c)) (m_world m))).
      * exists 1. cbn [Vm_Model.vm_exec]. unfold Vm_Model.vm_turn. cbn [put set_vm mc_vm mc_image v_pending v_ctx v_heap Vm_Model.ctx_exec]. rewrite A. reflexivity.
      * exists 0. destruct Q as (QR & QA & _). unfold after_stop. cbv zeta. unfold invoke. cbn [v_pending v_ctx v_heap v_last_error v_world]. unfold run_upcall.
        cbn [v_ctx v_heap v_world v_last_error v_pending]. change (upcall_of host _) with up. change (runnable (mc_image (set_vm _ _))) with img.
        rewrite U, F, M. unfold handle_exception. cbn [v_ctx set_regs c_handler]. rewrite HN1.
        unfold should_stop, machine_world. cbn [put set_vm mc_vm mc_image mc_compiler v_world park]. rewrite QR.
        unfold clear_actions, machine_world, set_world, vm_set_world. cbn [put set_vm mc_vm mc_image mc_compiler v_world v_ctx v_heap v_last_error v_pending park].
        rewrite QA. reflexivity.
Qed.
End Run.

(** The handler stays if no instruction sets one. *)
Lemma runs_handler up img c (m : mem W) c' m' : runs up img c m c' m' -> (forall pc md t, ~ fetched img pc (ISetErrorHandler md t)) ->
  c_handler c' = c_handler c.
Proof.
  intros R NO. induction R as [c m|c m c1 h1 c2 m2 E R IH|c m c1 h1 c2 m2 E R IH|c m idx first pc c1 h1 r c2 m2 A U F R IH]; [reflexivity| | |]; rewrite IH; clear IH R.
  - destruct (step_control _ _ _ _ _ _ E) as (i & FE & _ & CT & _). destruct CT as [i _ _ _ _ [H|(md & t & -> & _)] _|i t _ ->|r t _ ->|t _ ->|f rest _ _ _ _ H _ _]; try reflexivity; try exact H.
    + destruct (NO _ _ _ FE).
    + unfold jump_to. destruct (_ <=? _)%nat; reflexivity.
  - destruct (Vm_Proofs.step_stop _ _ _ _ _ _ _ E) as [(_ & _ & _ & -> & _)|(i & _ & X & _)]; [reflexivity|].
    destruct (dispatch_no_yield _ _ _ _ _ _ _ X).
  - cbn [set_regs c_handler].
    destruct A as [A|A]; (destruct (Vm_Proofs.step_stop _ _ _ _ _ _ _ A) as [(X & _)|(i & _ & X & _)]; [discriminate X|]);
      (first [destruct (dispatch_upcall _ _ _ _ _ _ _ _ _ _ _ (or_introl eq_refl) X) as (-> & -> & ->)|destruct (dispatch_upcall _ _ _ _ _ _ _ _ _ _ _ (or_intror eq_refl) X) as (-> & -> & ->)]); reflexivity.
Qed.

(** The variables are still held after more input was compiled. *)
Lemma represents_kept cs cs' h p raw x : kept cs cs' -> represents cs h p raw x -> represents cs' h p raw x.
Proof.
  intros K. assert (SF : forall t v d, stands_for cs h t v d -> stands_for cs' h t v d).
  { intros t v d. destruct d; cbn [stands_for]; auto. intros [A B]. split; [exact A|]. eapply deref_kept; eassumption. }
  unfold represents. destruct x, p; auto. intros (A & B & i & vs & C & D & E & F & G). split; [exact A|]. split; [exact B|].
  exists i, vs. repeat (split; [assumption|]). intros subs V. destruct (G subs V) as (v & G1 & G2). exists v. auto.
Qed.
Lemma holding_later L L' hidden cs cs' ls ls' c (m : mem W) s : ext (by_now L ls) (by_now L' ls') -> no_shadowing (by_now L' ls') -> kept cs cs' ->
  holding L hidden cs ls None c m s -> holding L' hidden cs' ls' None c m s.
Proof.
  intros X NS K H.
  assert (EQ : forall v x, vals s (ascii_upper (vr_name v)) = Some x -> get_local_or_global (by_now L' ls') v = get_local_or_global (by_now L ls) v).
  { intros v x V. apply lookup_ext; [exact X|exact NS|]. intros U. pose proof (hd_known _ _ _ _ _ _ _ _ H v x V) as Q.
    destruct (get_local_or_global (by_now L ls) v) as [[r p]|[z|z|z|z w]]; auto. }
  assert (SE : forall v r p x, seen L' ls' None s v r p x -> seen L ls None s v r p x).
  { intros v r p x (S1 & S2 & S3). split; [exact S1|]. split; [rewrite <- (EQ _ _ S1); exact S2|exact S3]. }
  destruct H as [A1 A2 A3 A4 A5 A6 A7 A8 A9 A10]. constructor; auto.
  - intros v x V. rewrite (EQ _ _ V). apply (A6 _ _ V).
  - intros v r p x Q. eapply represents_kept; [exact K|]. eapply A7. apply SE, Q.
  - intros v r p t dims at_ v' r' p' t' dims' at_' Q Q'. eapply A8; apply SE; eassumption.
  - intros v r p t dims at_ i Q. eapply A10. apply SE, Q.
Qed.

Lemma holding_ctx L hidden cs ls c c' (m : mem W) (s s' : env W) : holding L hidden cs ls None (set_yield c false) m s ->
  c_fp c' = c_fp c -> c_max c' = c_max c -> c_stack c' = c_stack c -> c_regs c' = c_regs c -> vals s' = vals s ->
  holding L hidden cs ls None (set_yield c' false) (mkMem m (world s')) s'.
Proof.
  intros [A1 A2 A3 A4 A5 A6 A7 A8 A9 A10] E1 E2 E3 E4 E5.
  assert (R : forall r, get_reg (set_yield c' false) r = get_reg (set_yield c false) r).
  { intros r. unfold get_reg, reg_index. cbn [set_yield c_regs c_fp]. rewrite E1, E4. reflexivity. }
  assert (SE : forall v r p x, seen L ls None s' v r p x -> seen L ls None s v r p x) by (unfold seen; intros; rewrite <- E5; assumption).
  cbn [set_yield c_fp c_max c_stack] in *.
  constructor; cbn [set_yield c_yield c_fp c_max c_stack m_heap m_world]; rewrite ?E1, ?E2, ?E3; auto.
  - intros v x V. rewrite E5 in V. apply (A6 _ _ V).
  - intros v r p x Q. rewrite R. apply (A7 v). apply SE, Q.
  - intros v r p t dims at_ v' r' p' t' dims' at_' Q Q'. rewrite !R. eapply A8; apply SE; eassumption.
  - intros v r p t dims at_ i Q. rewrite R. eapply A10. apply SE, Q.
Qed.

Lemma rest_world (m : machine (W := W)) hidden s w : at_rest m hidden s -> at_rest (set_world m w) hidden (mkEnv (vals s) w).
Proof.
  intros (P & PC & HD). split; [exact P|]. split; [exact PC|].
  apply (holding_ctx _ _ _ _ (ctx_of m) _ (mem_of m) s (mkEnv (vals s) w) HD); reflexivity.
Qed.
Lemma rest_handler (m : machine (W := W)) hidden s : at_rest m hidden s -> at_rest (clear_error_handler m) hidden s.
Proof.
  intros (P & PC & HD). split; [exact P|]. split; [exact PC|].
  pose proof (holding_ctx _ _ _ _ (ctx_of m) (ctx_of (clear_error_handler m)) (mem_of m) s s HD eq_refl eq_refl eq_refl eq_refl eq_refl) as X.
  rewrite <- (hd_world _ _ _ _ _ _ _ _ HD) in X. exact X.
Qed.

(** The last of [Machine::exec] after END. *)
Definition finish (running : bool) (code : N) (m : machine) : exec_end :=
  if negb running then Ended m (Ok (Some (Z.of_N code)))
  else if (code =? 0)%N then leave_loop true m (Ok None)
  else
    let '(w, e) := o_print_line o (u "Program exited with code " ++ to_string (Z.of_N code)) (machine_world m) in
    match e with
    | Some msg => Ended (set_world m w) (Err (MeIo msg))
    | None => leave_loop true (set_world m w) (Ok None)
    end.
Lemma finish_after running code m v : after (fun _ _ => None) running m (VStop W (VEnd code) v) = Some (finish running code (set_vm m v)).
Proof.
  unfold after_stop, finish. cbv zeta. destruct running; cbn [negb]; [|reflexivity]. destruct (code =? 0)%N; [reflexivity|].
  destruct (o_print_line _ _ _) as [w [msg|]]; reflexivity.
Qed.

(** How running [m1] ends. *)
Definition finishes (running : bool) (m1 : machine) (hidden : N -> option hdatum) (s' : env W) (g : signal) : Prop :=
  match g with
  | SigNormal => exists m2, ends running m1 (leave_loop running m2 (Ok None)) /\ same_program m1 m2 /\ parked m2 /\ at_rest m2 hidden s'
  | SigEnd code => exists m2, ends running m1 (finish running code m2) /\ same_program m1 m2 /\ parked m2 /\ at_rest m2 hidden s'
  | SigError e => no_handler m1 ->
      exists m2 pos, ends running m1 (leave_loop running m2 (Err (MeRuntime pos e))) /\ same_program m1 m2 /\ parked m2 /\ machine_world m2 = world s'
  | _ => True
  end.

Lemma put_self m : v_pending W (mc_vm m) = None -> put m (ctx_of m) (mem_of m) (m_world (mem_of m)) = m.
Proof. destruct m as [k i [c h le p w]]. cbn. intros ->. reflexivity. Qed.

Lemma start_pc k img : synced k img -> s_pc (start_of k) = length (g_code (t_gen (k_ctx k))) - 1.
Proof.
  intros Y. unfold start_of, s_pc, s_gen, next_pc. cbn [fst set_gen t_gen]. unfold pop_eof.
  destruct (g_code (t_gen (k_ctx k))) as [|i r] eqn:E; [rewrite E; reflexivity|].
  unfold with_code. cbn [g_code]. rewrite length_removelast. reflexivity.
Qed.

Lemma compiled_ends running m m1 srcs l hidden s s' g defined does n d :
  session callables global_defs srcs (mc_compiler m) (mc_image m) -> at_rest m hidden s ->
  compile_more (mc_compiler m) (mc_image m) (l, None) = (Compiled, mc_compiler m1, mc_image m1) -> mc_vm m1 = mc_vm m ->
  linked callables global_defs (host (ci_upcalls (mc_image m1))) (mc_compiler m1) (mc_image m1) defined does ->
  Forall (stmt_fine (k_syms (mc_compiler m1))) l -> undisturbed powf host o m1 ->
  execs_in powf (k_syms (mc_compiler m1)) (linked_calls powf (mc_compiler m1) defined does n)
    (linked_subs powf (mc_compiler m1) defined does n d s l) s l s' g ->
  overflows powf host m1 \/ finishes running m1 hidden s' g.
Proof.
  intros SE (PE & PC & HD) H V LN FI UN X.
  destruct m1 as [k' img' v1]. cbn [mc_vm] in V. subst v1. set (m1 := mkMachine k' img' (mc_vm m)) in *.
  set (k := mc_compiler m) in *. set (img := mc_image m) in *.
  change (mc_compiler m1) with k' in *. change (mc_image m1) with img' in *.
  pose proof (session_synced _ _ _ _ _ SE) as SY.
  destruct (compile_more_synced _ _ _ _ _ SY H) as (SY' & OA & CODE & _ & _ & xe & _ & C & _).
  destruct (input_has _ _ srcs k img _ k' img' xe SE H C) as (HS & OE & LT & KS & FE).
  assert (SE' : session callables global_defs (srcs ++ [(l, None)]) k' img') by (econstructor; eassumption).
  pose proof (ho_shadow _ _ _ _ (ln_main _ _ _ _ _ _ _ LN)) as NS.
  pose proof (proj1 (proj2 (session_ends _ _ _ _ _ SE'))) as L1.
  pose proof (syms_after _ _ _ _ _ _ _ _ _ SE H) as EX.
  assert (RD : ready (runnable img') (k_syms k') hidden (start_of k) (ctx_of m1) (mem_of m1) s).
  { split; [exact PC|]. eapply holding_later; [| | |exact HD].
    - destruct EX as (E1 & E2 & E3 & E4). split; [exists []; symmetry; apply app_nil_r|]. split; [exact E2|]. split; [exact E3|exact E4].
    - destruct EX as ([z E1] & E2 & _). intros key. cbn [by_now ls_locals ls_global]. destruct (NS key) as [Q|Q]; [left|right; exact Q].
      change (snd (start_of k)) with (k_syms k). destruct (id_get ustr_eqb (ls_locals (k_syms k)) key) as [e|] eqn:G; [|reflexivity].
      rewrite E1, (get_ext _ _ _ _ G) in Q. discriminate Q.
    - apply OA. }
  assert (CI : compiled_in callables global_defs k' img' (start_of k) l xe).
  { eapply (compiled_now _ _ srcs k img [] l []); [exact SE|rewrite app_nil_r; exact H|reflexivity|exact C]. }
  assert (OO : outcome_of powf (host (ci_upcalls img')) (runnable img') (k_syms k') hidden xe (ctx_of m1) (mem_of m1) s' g).
  { eapply linked_block_runs; try eassumption. exists (start_of k), xe, (ctx_of m1), (mem_of m1). auto. }
  assert (SN : s_pc (start_of k') = length (ci_code img') - 1).
  { rewrite (start_pc _ _ SY'), CODE, map_length. reflexivity. }
  assert (SP : s_pc (start_of k') = s_pc xe).
  { clear -SN LT CODE C H SY HS FE SE.
    destruct (compile_more_synced _ _ _ _ _ SY H) as (_ & _ & _ & _ & _ & x & g' & C' & _ & F & EQ & _).
    assert (xe = x) as <- by (enough (COk xe = COk x) as Q by (injection Q; auto); rewrite <- C'; symmetry; exact C). rewrite SN, CODE, map_length, EQ.
    unfold apply_fixups in F. destruct (apply_fixup_list_grows 0 _ _ _ F) as (_ & PC & _); [apply Forall_forall; intros; lia|].
    unfold next_pc in PC. cbn [g_code] in PC. rewrite PC. unfold emit, with_code. cbn [g_code]. rewrite app_length. cbn [length].
    unfold s_pc, next_pc. lia. }
  assert (BACK : forall c' (h' : mem W) y, runs (host (ci_upcalls img')) (runnable img') (ctx_of m1) (mem_of m1) c' h' ->
    ends running (put m1 c' h' (m_world h')) y -> ends running m1 y).
  { intros c' h' y R E. rewrite <- (put_self m1 PE). eapply calmly_back; [|exact E]. apply runs_calmly; [exact R|].
    intros c2 h2 R2. apply (UN c2 h2 R2). }
  destruct g; try (right; exact Logic.I).
  - destruct OO as (c' & h' & R & [G|(FR & TK & P & HO)]); [left; exists c', h'; auto|right]. cbn [place] in P.
    assert (UP : forall idx first pc a a' h w, c_regs a = c_regs a' -> c_fp a = c_fp a' ->
      host (ci_upcalls img') idx first pc (runnable img') a h w = host (ci_upcalls img') idx first pc (runnable img') a' h w).
    { apply (ob_scope _ _ _ _ _ _ (ho_obeys _ _ _ _ (ln_main _ _ _ _ _ _ _ LN))). }
    assert (ST : step (runnable img') (set_yield c' false) h' = RStop SEof (set_yield c' false) h').
    { rewrite (step_at powf (runnable img') _ _ IEof); [reflexivity|reflexivity|]. cbn [set_yield c_pc]. rewrite P. exact FE. }
    destruct (catch_up powf (runnable img') (host (ci_upcalls img')) UP (set_yield c' false) h' c'
      _ (session_meta _ _ _ _ _ SE') eq_refl eq_refl ST ltac:(discriminate)) as (d2 & R2 & Q2 & RQ).
    assert (EQ : set_yield d2 false = set_yield c' false) by (apply (yeq_clear _ _ Q2 eq_refl)).
    exists (put m1 d2 h' (m_world h')).
    assert (PD : c_pc d2 = s_pc (start_of k')) by (rewrite SP, <- P; change (c_pc d2) with (c_pc (set_yield d2 false)); rewrite EQ; reflexivity).
    split; [|split; [split; reflexivity|split; [split; [reflexivity|]|]]].
    + eapply BACK; [eapply runs_trans; eassumption|]. apply eof_ends.
      change (runnable (mc_image m1)) with (runnable img').
      destruct (step (runnable img') d2 h') as [|s1 c1 h1|] eqn:E1; cbn [req] in RQ; try contradiction.
      destruct RQ as (-> & _ & _). destruct (step_stop _ _ _ _ _ _ _ E1 Logic.I) as [-> ->]. reflexivity.
    + change (S (c_pc d2) = length (ci_code img')). clear -PD SN L1. lia.
    + split; [reflexivity|]. split; [exact PD|].
      change (holding (k_syms k') hidden (ci_constants img') (k_syms k') None (set_yield d2 false) (mkMem h' (m_world h')) s').
      rewrite EQ. rewrite KS in *. destruct h' as [hp w]. exact HO.
  - destruct OO as (c' & h' & R & [G|(FR & TK & (h2 & ST) & HO)]); [left; exists c', h'; auto|right].
    destruct (step_stop _ _ _ _ _ _ _ ST Logic.I) as [_ ->].
    exists (put m1 (park_at_eof (runnable img') c') h' (m_world h')). split; [|split; [split; reflexivity|split; [split; [reflexivity|]|]]].
    + eapply BACK; [exact R|]. eapply end_ends; [exact ST|]. rewrite finish_after. reflexivity.
    + change (S (length (ci_code img') - 1) = length (ci_code img')). clear -L1. lia.
    + split; [reflexivity|]. split; [symmetry; exact SN|].
      change (holding (k_syms k') hidden (ci_constants img') (k_syms k') None (set_yield (park_at_eof (runnable img') c') false) (mkMem h' (m_world h')) s').
      rewrite KS in *.
      pose proof (holding_ctx _ _ _ _ c' (park_at_eof (runnable img') c') h' s' s' HO eq_refl eq_refl eq_refl eq_refl eq_refl) as Q.
      rewrite <- (hd_world _ _ _ _ _ _ _ _ HO) in Q. exact Q.
  - destruct OO as (c' & h' & R & [G|F]); [left; exists c', h'; auto|right]. intros [NH NI].
    destruct (fail_ends m1 c' h' running e (world s')) as (v & pos & E1 & E3 & E4 & E2).
    + apply session_meta in SE'. exact SE'.
    + rewrite (runs_handler _ _ _ _ _ _ R NI). exact NH.
    + exact F.
    + eapply (UN c' h' R). exact F.
    + exists (set_vm m1 v), pos. split; [eapply BACK; eassumption|]. split; [split; reflexivity|]. split; [|exact E1].
      split; [exact E3|]. cbn [ctx_of set_vm mc_vm mc_image]. unfold ctx_of. cbn [set_vm mc_vm]. rewrite E4. cbn [runnable i_code mc_image].
      change (mc_image m1) with img'. clear -L1. lia.
Qed.

Lemma parked_ends running (m : machine (W := W)) srcs : session callables global_defs srcs (mc_compiler m) (mc_image m) -> parked m ->
  calm o (machine_world m) ->
  exists c, set_yield c false = set_yield (ctx_of m) false /\
    ends running m (leave_loop running (put m c (mem_of m) (machine_world m)) (Ok None)).
Proof.
  intros SE [P PC] Q. set (img := runnable (mc_image m)).
  assert (FE : fetched img (c_pc (ctx_of m)) IEof).
  { destruct (session_ends _ _ _ _ _ SE) as (LA & L1 & _). exists (encode IEof). split; [|reflexivity]. cbn [img runnable i_code].
    rewrite <- LA. clear -PC L1. revert PC. generalize (c_pc (ctx_of m)) as n. induction (ci_code (mc_image m)) as [|a l IH]; intros n PC; [cbn in PC; lia|].
    destruct l as [|b l]; [destruct n as [|n]; [reflexivity|cbn in PC; lia]|]. destruct n as [|n]; [cbn in PC; lia|]. cbn [nth_error].
    change (last (a :: b :: l) 0%N) with (last (b :: l) 0%N). apply IH; cbn [length] in *; lia. }
  assert (ST : forall c, c_pc c = c_pc (ctx_of m) -> c_yield c = false -> step img c (mem_of m) = RStop SEof c (mem_of m)).
  { intros c E Y. rewrite (step_at powf img _ _ IEof); [reflexivity|exact Y|]. rewrite E. exact FE. }
  assert (BK : forall y, ends running (put m (ctx_of m) (mem_of m) (m_world (mem_of m))) y -> ends running m y) by (intros y; rewrite (put_self m P); auto).
  destruct (c_yield (ctx_of m)) eqn:Y.
  - destruct (stmt_start img (c_pc (ctx_of m))) as [[|]|] eqn:SS.
    + exists (set_yield (ctx_of m) false). split; [reflexivity|].
      apply BK. eapply (calmly_back _ _ _ (set_yield (ctx_of m) false) (mem_of m)); [|apply eof_ends; apply ST; reflexivity].
      eapply calmly_yield; [|exact Q|constructor]. unfold Vm_Model.step. fold img. rewrite Y, SS. reflexivity.
    + exists (ctx_of m). split; [reflexivity|]. apply BK. apply eof_ends. fold img. unfold Vm_Model.step. rewrite Y, SS.
      specialize (ST (set_yield (ctx_of m) false) eq_refl eq_refl). unfold Vm_Model.step in ST. cbn [set_yield c_yield] in ST.
      unfold fetch_exec in *. cbn [set_yield c_pc] in ST. destruct FE as (x & F1 & F2). rewrite F1, F2 in *. reflexivity.
    + exfalso. pose proof (session_meta _ _ _ _ _ SE) as MC. unfold meta_covers in MC. unfold stmt_start in SS.
      destruct (nth_error (i_meta img) (c_pc (ctx_of m))) eqn:E; [discriminate SS|]. apply nth_error_None in E.
      destruct FE as (x & F1 & _). assert (c_pc (ctx_of m) < length (i_code img)) by (apply nth_error_Some; congruence). fold img in MC. lia.
  - exists (ctx_of m). split; [reflexivity|]. apply BK. apply eof_ends. apply ST; auto.
Qed.

(** A machine without variables. *)
Lemma holding_nothing L cs ls c (h : heap) (w : W) : (N.of_nat (c_max c) < 2 ^ 24)%N -> c_fp c = 64 -> c_stack c = [] -> heap_ok h ->
  holding L (fun _ => None) cs ls None (set_yield c false) (mkMem h w) (nothing w).
Proof.
  intros SM FP ST HO. constructor; cbn [m_heap m_world vals world set_yield c_yield c_fp c_max c_stack nothing]; auto; try discriminate.
  - rewrite FP. lia.
  - rewrite FP, ST. cbn [length]. rewrite Nat.sub_0_r. clear -SM. lia.
  - intros v r p d (V & _). discriminate V.
  - intros v r p t dims at_ v' r' p' t' dims' at_' (V & _). discriminate V.
Qed.

Lemma new_rests (m : machine (W := W)) k : compiler_new callables [] = COk k -> mc_compiler m = k -> mc_image m = cimage_default ->
  v_pending W (mc_vm m) = None -> c_pc (ctx_of m) = 0 -> (N.of_nat (c_max (ctx_of m)) < 2 ^ 24)%N -> c_fp (ctx_of m) = 64 -> c_stack (ctx_of m) = [] ->
  heap_ok (v_heap W (mc_vm m)) ->
  session callables [] [] (mc_compiler m) (mc_image m) /\ parked m /\ at_rest m (fun _ => None) (nothing (machine_world m)).
Proof.
  intros K EK EI P PC SM FP ST HO. split; [rewrite EK, EI; constructor; exact K|]. split; [split; [exact P|rewrite PC, EI; reflexivity]|].
  split; [exact P|]. rewrite EK, EI. split; [rewrite PC; eapply new_starts; exact K|]. apply holding_nothing; auto.
Qed.

(** A signal while yielding, and while a command of the host runs. *)
Lemma break_yield running m c (h : heap) (w : W) c1 h1 w' : step (runnable (mc_image m)) c h = RStop SYield c1 h1 ->
  o_receive o (o_yield_now o w) = (w', true) ->
  ends running (put m c h w) (leave_loop running (put m (park_at_eof (runnable (mc_image m)) c1) h1 w') (Err MeBreak)).
Proof.
  intros E R. eapply ends_stop with (x := VStop W VYield (mkVm W c1 h1 (v_last_error W (mc_vm m)) None w)).
  - exists 1. cbn [Vm_Model.vm_exec]. unfold Vm_Model.vm_turn. cbn [put set_vm mc_vm mc_image v_pending v_ctx v_heap Vm_Model.ctx_exec]. rewrite E. reflexivity.
  - exists 0. unfold after_stop. cbv zeta. unfold should_stop, machine_world, set_world. cbn [put set_vm mc_vm mc_image mc_compiler v_world vm_set_world].
    rewrite R. reflexivity.
Qed.
(** A command of the host was served, and left actions. *)
Definition served m c1 (r : upcall_result W) (w : W) : machine := put m (set_regs c1 (u_regs W r)) (u_heap W r) w.
Lemma async_stop running m c (h : heap) (w : W) idx first pc c1 h1 r n y :
  step (runnable (mc_image m)) c h = RStop (SUpcallAsync idx first pc) c1 h1 ->
  host (ci_upcalls (mc_image m)) idx first pc (runnable (mc_image m)) c1 h1 w = Some r -> u_failure W r = None ->
  (let '(m', stop) := should_stop o (served m c1 r (u_world W r)) in
   if stop then Some (leave_loop running (machine_interrupt (clear_actions o m')) (Err MeBreak))
   else match drain_actions alnum numeric uc show_msg callables global_defs o m' with
        | None => Some EndPanic
        | Some (m', Err e) => Some (Ended m' (Err e))
        | Some (m', Ok ran) => loop n (running || ran) m'
        end) = Some y ->
  ends running (put m c h w) y.
Proof.
  intros E U F A. eapply ends_stop with (x := VStop W VUpcallAsync (mkVm W c1 h1 (v_last_error W (mc_vm m)) (Some (idx, first, pc)) w)).
  - exists 1. cbn [Vm_Model.vm_exec]. unfold Vm_Model.vm_turn. cbn [put set_vm mc_vm mc_image v_pending v_ctx v_heap Vm_Model.ctx_exec]. rewrite E. reflexivity.
  - exists n. unfold after_stop. cbv zeta. unfold invoke. cbn [v_pending v_ctx v_heap v_last_error v_world]. unfold run_upcall.
    cbn [v_ctx v_heap v_world v_last_error v_pending]. change (upcall_of host _) with (host (ci_upcalls (mc_image m))).
    change (runnable (mc_image (set_vm _ _))) with (runnable (mc_image m)). rewrite U, F. exact A.
Qed.
End Machine.
