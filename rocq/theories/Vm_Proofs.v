(** Proofs about the virtual machine: control flow, calls, errors, termination. *)
From Verif Require Import Base Bytecode_Model Mem_Model Mem_Spec Mem_Proofs Num_Model Vm_Model Vm_Spec.

(** * Registers *)

Lemma slot_put regs i v j : nth j (put regs i v) 0%N = if j =? i then v else nth j regs 0%N.
Proof.
  unfold put. destruct (Nat.eqb_spec j i) as [->|N].
  - apply nth_error_nth. apply upd_nth_same. rewrite app_length, repeat_length. lia.
  - assert (E : nth_error (upd (regs ++ repeat 0%N (S i - length regs)) i v) j =
                nth_error (regs ++ repeat 0%N (S i - length regs)) j) by (apply upd_nth_other; auto).
    destruct (Nat.lt_ge_cases j (length regs)) as [L|L].
    + rewrite nth_error_app1 in E by lia.
      destruct (nth_error regs j) as [x|] eqn:X; [|apply nth_error_None in X; lia].
      rewrite (nth_error_nth _ _ _ E), (nth_error_nth _ _ _ X). reflexivity.
    + rewrite (nth_overflow regs) by lia.
      rewrite nth_error_app2 in E by lia.
      destruct (nth_error (repeat 0%N (S i - length regs)) (j - length regs)) as [x|] eqn:X.
      * rewrite (nth_error_nth _ _ _ E). apply nth_error_In, repeat_spec in X. assumption.
      * apply nth_error_None in E. apply nth_overflow. assumption.
Qed.

Lemma put_length regs i v : length (put regs i v) = Nat.max (length regs) (S i).
Proof. unfold put. rewrite upd_length, app_length, repeat_length. lia. Qed.

Lemma slot_set_reg c r v j :
  slot (set_reg c r v) j = if j =? reg_index c r then v else slot c j.
Proof. unfold slot, set_reg. cbn [set_regs c_regs]. apply slot_put. Qed.

Lemma get_reg_slot c r : get_reg c r = slot c (reg_index c r).
Proof. reflexivity. Qed.

(** A register reference names a global position or one at or above the frame pointer. *)
Lemma reg_index_range c r : reg_index c r < 64 \/ c_fp c <= reg_index c r.
Proof.
  unfold reg_index, register_to_parts, max_global. destruct (N.ltb_spec r 64); [left|right]; lia.
Qed.

(** * Control effects of one instruction *)

Inductive control (c c' : ctx) : instr -> Prop :=
| ctl_next i :
    c_pc c' = S (c_pc c) -> c_fp c' = c_fp c -> c_stack c' = c_stack c -> c_yield c' = c_yield c ->
    (c_handler c' = c_handler c \/
      exists m t, i = ISetErrorHandler m t /\
        c_handler c' = match m with EhNone => HNone | EhJump => HJump false (N.to_nat t)
                               | EhResumeNext => HResumeNext end) ->
    (forall k, k < 64 \/ c_fp c <= k \/ slot c' k = slot c k) ->
    control c c' i
| ctl_jump i t :
    (i = IJump t \/ exists r, i = IJumpIfFalse r t) ->
    c' = jump_to c (N.to_nat t) -> control c c' i
| ctl_call r t :
    length (c_stack c) < c_max c ->
    c' = mkCtx (N.to_nat t) (c_fp c + N.to_nat (snd (register_to_parts r))) (c_handler c) (c_regs c)
           (mkFrame (c_pc c) (c_fp c) (Some r) :: c_stack c) (c_max c) (c_yield c) ->
    control c c' (ICall r t)
| ctl_gosub t :
    length (c_stack c) < c_max c ->
    c' = mkCtx (N.to_nat t) (c_fp c) (c_handler c) (c_regs c)
           (mkFrame (c_pc c) (c_fp c) None :: c_stack c) (c_max c) (c_yield c) ->
    control c c' (IGosub t)
| ctl_ret f rest :
    c_stack c = f :: rest ->
    c_pc c' = S (f_pc f) -> c_fp c' = f_fp f -> c_stack c' = rest -> c_handler c' = c_handler c ->
    (f_ret f = None -> c_yield c' = true /\ c_regs c' = c_regs c) ->
    (forall r, f_ret f = Some r -> c_yield c' = c_yield c /\
       (forall k, slot c' k =
         if k =? (if (r <? 64)%N then N.to_nat r else N.to_nat (r - 64) + f_fp f)
         then slot c (c_fp c) else slot c k)) ->
    control c c' IReturn.

Section Proofs.
Variable powf : N -> N -> N.
Notation step := (step powf).
Notation dispatch := (dispatch powf).

Lemma set_reg_ctl c r v i : control c (next_pc (set_reg c r v)) i.
Proof.
  apply ctl_next; try reflexivity; [left; reflexivity|].
  intros k. destruct (reg_index_range c r) as [H|H];
    (destruct (Nat.eq_dec k (reg_index c r)) as [->|N]; [tauto|]);
    right; right; unfold next_pc, set_pc, slot; cbn [c_regs];
    change (nth k (c_regs (set_reg c r v)) 0%N) with (slot (set_reg c r v) k);
    rewrite slot_set_reg; destruct (Nat.eqb_spec k (reg_index c r)); congruence || reflexivity.
Qed.

Lemma next_ctl c i : control c (next_pc c) i.
Proof. apply ctl_next; try reflexivity; [left; reflexivity|]. intros k. right; right; reflexivity. Qed.

Lemma handler_ctl c m t hd :
  hd = match m with EhNone => HNone | EhJump => HJump false (N.to_nat t) | EhResumeNext => HResumeNext end ->
  control c (next_pc (set_handler c hd)) (ISetErrorHandler m t).
Proof.
  intros ->. apply ctl_next; try reflexivity.
  - right. exists m, t. split; reflexivity.
  - intros k. right; right; reflexivity.
Qed.

Lemma RNext_inj a b c d : RNext a b = RNext c d -> a = c /\ b = d.
Proof. intros H. injection H. auto. Qed.

Lemma RStop_inj a b c a' b' c' : RStop a b c = RStop a' b' c' -> a = a' /\ b = b' /\ c = c'.
Proof. intros H. injection H. auto. Qed.

Lemma SException_inj p e p' e' : SException p e = SException p' e' -> p = p' /\ e = e'.
Proof. intros H. injection H. auto. Qed.

Lemma next_not_stop a b c d e : RNext a b <> RStop c d e.
Proof. discriminate. Qed.

Ltac exc_inj H := let E := fresh in apply RStop_inj in H; destruct H as (E & <- & <-);
  first [discriminate E | apply SException_inj in E; destruct E as [<- <-]].

Ltac step_cases :=
  repeat match goal with
  | H : RNext _ _ = RNext _ _ |- _ => apply RNext_inj in H; destruct H as [<- <-]
  | H : RStop _ _ _ = RNext _ _ |- _ => discriminate H
  | H : RNext _ _ = RStop _ _ _ |- _ => exfalso; exact (next_not_stop _ _ _ _ _ H)
  | H : RPanic = _ |- _ => discriminate H
  | H : context [match ?x with _ => _ end] |- _ =>
      match type of H with _ = RNext _ _ => destruct x eqn:? | _ = RStop _ _ _ => destruct x eqn:? end
  end.

Lemma op3_control img c h o x y z c' h' :
  do_op3 powf c h (i_constants img) o x y z = RNext c' h' ->
  c_max c' = c_max c /\ control c c' (I3 o x y z).
Proof.
  intros H. destruct o; cbn [do_op3] in H;
    unfold do_binary_double_op, do_binary_double_predicate_op, do_binary_integer_op,
      do_binary_integer_predicate_op, do_binary_boolean_op, do_binary_text_op, do_concat,
      do_load_array, do_store_array, set_exception in H; cbv zeta in H;
    step_cases; (split; [reflexivity|first [apply set_reg_ctl|apply next_ctl]]).
Qed.

Lemma op1_control c h o r c' h' :
  do_op1 c h o r = RNext c' h' -> c_max c' = c_max c /\ control c c' (I1 o r).
Proof.
  intros H. destruct o; cbn [do_op1] in H; unfold set_exception in H; cbv zeta in H;
    step_cases; (split; [reflexivity|apply set_reg_ctl]).
Qed.

Lemma dispatch_control img c h i c' h' :
  dispatch img c h i = RNext c' h' -> c_max c' = c_max c /\ control c c' i.
Proof.
  intros H. destruct i; cbn [Vm_Model.dispatch] in H.
  - eapply op3_control; eassumption.
  - eapply op1_control; eassumption.
  - step_cases. split; [reflexivity|apply set_reg_ctl].
  - unfold do_alloc_array, set_exception in H. cbv zeta in H. step_cases; (split; [reflexivity|apply set_reg_ctl]).
  - unfold push_frame, set_exception in H. destruct (Nat.leb_spec (c_max c) (length (c_stack c))); [discriminate|].
    cbn in H. injection H as <- <-. split; [reflexivity|]. apply ctl_call; [assumption|reflexivity].
  - unfold push_frame, set_exception in H. destruct (Nat.leb_spec (c_max c) (length (c_stack c))); [discriminate|].
    cbn in H. injection H as <- <-. split; [reflexivity|]. apply ctl_gosub; [assumption|reflexivity].
  - injection H as <- <-. split; [unfold jump_to; destruct (_ <=? _); reflexivity|].
    eapply ctl_jump; [left; reflexivity|reflexivity].
  - destruct (get_reg c cond =? 0)%N; injection H as <- <-.
    + split; [unfold jump_to; destruct (_ <=? _); reflexivity|].
      eapply ctl_jump; [right; eexists; reflexivity|reflexivity].
    + split; [reflexivity|apply next_ctl].
  - step_cases; (split; [reflexivity|apply set_reg_ctl]).
  - step_cases; (split; [reflexivity|apply set_reg_ctl]).
  - step_cases; (split; [reflexivity|apply set_reg_ctl]).
  - step_cases; (split; [reflexivity|apply set_reg_ctl]).
  - step_cases. split; [reflexivity|apply next_ctl].
  - unfold do_return, set_exception in H. destruct (c_stack c) as [|f rest] eqn:S; [discriminate|].
    destruct (f_ret f) as [r|] eqn:R; injection H as <- <-.
    + split; [reflexivity|]. eapply ctl_ret; try eassumption; try reflexivity; [congruence|].
      intros r0 E. rewrite R in E. injection E as <-. split; [reflexivity|].
      intros k. rewrite slot_set_reg. unfold reg_index, register_to_parts, max_global. cbn [c_fp].
      destruct (r <? 64)%N; reflexivity.
    + split; [reflexivity|]. eapply ctl_ret; try eassumption; try reflexivity; [|congruence].
      intros _. split; reflexivity.
  - injection H as <- <-. split; [reflexivity|]. apply handler_ctl. reflexivity.
  - discriminate.
  - discriminate.
  - discriminate.
Qed.

Lemma step_next img c h c' h' : step img c h = RNext c' h' ->
  exists i, fetched img (c_pc c) i /\ dispatch img c h i = RNext c' h' /\
    (c_yield c = true -> stmt_start img (c_pc c) = Some false).
Proof.
  unfold Vm_Model.step, fetch_exec. intros H.
  destruct (c_yield c).
  - destruct (stmt_start img (c_pc c)) as [[|]|] eqn:S; try discriminate.
    destruct (nth_error (i_code img) (c_pc c)) as [w|] eqn:N; [|discriminate].
    destruct (decode w) as [i|] eqn:D; [|discriminate].
    exists i. split; [exists w; split; assumption|]. split; [assumption|reflexivity].
  - destruct (nth_error (i_code img) (c_pc c)) as [w|] eqn:N; [|discriminate].
    destruct (decode w) as [i|] eqn:D; [|discriminate].
    exists i. split; [exists w; split; assumption|]. split; [assumption|discriminate].
Qed.

Lemma step_control img c h c' h' : step img c h = RNext c' h' ->
  exists i, fetched img (c_pc c) i /\ c_max c' = c_max c /\ control c c' i /\
    (c_yield c = true -> stmt_start img (c_pc c) = Some false).
Proof.
  intros H. destruct (step_next _ _ _ _ _ H) as (i & F & D & Y).
  destruct (dispatch_control _ _ _ _ _ _ D) as [M C]. exists i. tauto.
Qed.

(** An instruction that fails changes nothing. *)
Lemma dispatch_exception img c h i pc e c' h' :
  dispatch img c h i = RStop (SException pc e) c' h' -> c' = c /\ h' = h /\ pc = c_pc c.
Proof.
  intros H. destruct i; cbn [Vm_Model.dispatch] in H.
  - destruct o; cbn [do_op3] in H;
    unfold do_binary_double_op, do_binary_double_predicate_op, do_binary_integer_op,
      do_binary_integer_predicate_op, do_binary_boolean_op, do_binary_text_op, do_concat,
      do_load_array, do_store_array, set_exception in H; cbv zeta in H;
    step_cases; exc_inj H; repeat split.
  - destruct o; cbn [do_op1] in H; unfold set_exception in H; cbv zeta in H;
    step_cases; exc_inj H; repeat split.
  - exfalso; exact (next_not_stop _ _ _ _ _ H).
  - unfold do_alloc_array, set_exception in H. cbv zeta in H.
    step_cases; exc_inj H; repeat split.
  - unfold set_exception in H. step_cases. exc_inj H; repeat split.
  - unfold set_exception in H. step_cases. exc_inj H; repeat split.
  - discriminate.
  - step_cases.
  - step_cases.
  - step_cases.
  - step_cases.
  - discriminate.
  - discriminate.
  - unfold do_return, set_exception in H. cbv zeta in H. step_cases. exc_inj H; repeat split.
  - discriminate.
  - discriminate.
  - discriminate.
  - discriminate.
Qed.

Lemma step_stop img c h s c' h' : step img c h = RStop s c' h' ->
  (s = SYield /\ c_yield c = true /\ stmt_start img (c_pc c) = Some true /\
   c' = set_yield c false /\ h' = h) \/
  (exists i, fetched img (c_pc c) i /\ dispatch img c h i = RStop s c' h' /\
     (c_yield c = true -> stmt_start img (c_pc c) = Some false)).
Proof.
  unfold Vm_Model.step, fetch_exec. intros H. destruct (c_yield c).
  - destruct (stmt_start img (c_pc c)) as [[|]|] eqn:S; try discriminate.
    + left. injection H as <- <- <-. repeat split.
    + destruct (nth_error (i_code img) (c_pc c)) as [w|] eqn:N; [|discriminate].
      destruct (decode w) as [i|] eqn:D; [|discriminate].
      right. exists i. split; [exists w; split; assumption|]. split; [assumption|reflexivity].
  - destruct (nth_error (i_code img) (c_pc c)) as [w|] eqn:N; [|discriminate].
    destruct (decode w) as [i|] eqn:D; [|discriminate].
    right. exists i. split; [exists w; split; assumption|]. split; [assumption|discriminate].
Qed.

Lemma step_exception img c h pc e c' h' :
  step img c h = RStop (SException pc e) c' h' ->
  c' = c /\ h' = h /\ pc = c_pc c /\ pc < length (i_code img) /\
  (c_yield c = true -> stmt_start img (c_pc c) = Some false).
Proof.
  intros H. destruct (step_stop _ _ _ _ _ _ H) as [(E & _)|(i & (w & F & D) & X & Y)]; [discriminate|].
  destruct (dispatch_exception _ _ _ _ _ _ _ _ X) as (-> & -> & ->).
  repeat split; auto. apply nth_error_Some. congruence.
Qed.

Lemma dispatch_upcall img c h i s idx first pc c' h' :
  s = SUpcall idx first pc \/ s = SUpcallAsync idx first pc ->
  dispatch img c h i = RStop s c' h' -> c' = next_pc c /\ h' = h /\ pc = c_pc c.
Proof.
  intros Hs H. destruct i; cbn [Vm_Model.dispatch] in H.
  - exfalso. destruct o; cbn [do_op3] in H;
    unfold do_binary_double_op, do_binary_double_predicate_op, do_binary_integer_op,
      do_binary_integer_predicate_op, do_binary_boolean_op, do_binary_text_op, do_concat,
      do_load_array, do_store_array, set_exception in H; cbv zeta in H;
    step_cases; apply RStop_inj in H; destruct H as (<- & <- & <-); destruct Hs; discriminate.
  - exfalso. destruct o; cbn [do_op1] in H; unfold set_exception in H; cbv zeta in H;
    step_cases; apply RStop_inj in H; destruct H as (<- & <- & <-); destruct Hs; discriminate.
  - discriminate.
  - exfalso. unfold do_alloc_array, set_exception in H. cbv zeta in H.
    step_cases; apply RStop_inj in H; destruct H as (<- & <- & <-); destruct Hs; discriminate.
  - exfalso. unfold set_exception in H. step_cases. apply RStop_inj in H; destruct H as (<- & <- & <-); destruct Hs; discriminate.
  - exfalso. unfold set_exception in H. step_cases. apply RStop_inj in H; destruct H as (<- & <- & <-); destruct Hs; discriminate.
  - discriminate.
  - step_cases.
  - step_cases.
  - step_cases.
  - step_cases.
  - discriminate.
  - discriminate.
  - exfalso. unfold do_return, set_exception in H. cbv zeta in H. step_cases. apply RStop_inj in H; destruct H as (<- & <- & <-); destruct Hs; discriminate.
  - discriminate.
  - apply RStop_inj in H; destruct H as (<- & <- & <-). destruct Hs as [E|E]; [injection E as -> -> ->|discriminate]. repeat split.
  - apply RStop_inj in H; destruct H as (<- & <- & <-). destruct Hs as [E|E]; [discriminate|injection E as -> -> ->]. repeat split.
  - apply RStop_inj in H; destruct H as (<- & <- & <-). destruct Hs; discriminate.
Qed.

Lemma step_upcall img c h s idx first pc c' h' :
  s = SUpcall idx first pc \/ s = SUpcallAsync idx first pc ->
  step img c h = RStop s c' h' ->
  c' = next_pc c /\ h' = h /\ pc = c_pc c /\ pc < length (i_code img) /\
  (c_yield c = true -> stmt_start img (c_pc c) = Some false).
Proof.
  intros Hs H. destruct (step_stop _ _ _ _ _ _ H) as [(E & _)|(i & (w & F & D) & X & Y)].
  - subst s. destruct Hs; discriminate.
  - destruct (dispatch_upcall _ _ _ _ _ _ _ _ _ _ Hs X) as (-> & -> & ->).
    repeat split; auto. apply nth_error_Some. congruence.
Qed.

(** * Fuel *)

Lemma ctx_exec_mono img n : forall k c h r,
  ctx_exec powf n img c h = Some r -> n <= k -> ctx_exec powf k img c h = Some r.
Proof.
  induction n as [|n IH]; intros k c h r H L; [discriminate|].
  destruct k as [|k]; [lia|]. cbn [ctx_exec] in *.
  destruct (step img c h); [apply IH; [assumption|lia]|assumption|assumption].
Qed.

Lemma ctx_exec_not_next img n : forall c h c' h', ctx_exec powf n img c h <> Some (RNext c' h').
Proof.
  induction n as [|n IH]; intros c h c' h' H; [discriminate|]. cbn [ctx_exec] in H.
  destruct (step img c h); [eapply IH; eassumption|discriminate|discriminate].
Qed.

(** Steps, and what [ctx_exec] says about them. *)
Inductive steps (img : image) : ctx -> heap -> ctx -> heap -> Prop :=
| steps_refl c h : steps img c h c h
| steps_cons c h c1 h1 c2 h2 :
    step img c h = RNext c1 h1 -> steps img c1 h1 c2 h2 -> steps img c h c2 h2.

Lemma ctx_exec_steps img n : forall c h r, ctx_exec powf n img c h = Some r ->
  exists c1 h1, steps img c h c1 h1 /\ step img c1 h1 = r.
Proof.
  induction n as [|n IH]; intros c h r H; [discriminate|]. cbn [ctx_exec] in H.
  destruct (step img c h) as [c1 h1|s c1 h1|] eqn:S.
  - destruct (IH _ _ _ H) as (c2 & h2 & X & Y). exists c2, h2. split; [econstructor; eassumption|assumption].
  - injection H as <-. exists c, h. split; [constructor|assumption].
  - injection H as <-. exists c, h. split; [constructor|assumption].
Qed.

Lemma steps_ctx_exec img c h c1 h1 r n :
  steps img c h c1 h1 -> ctx_exec powf n img c1 h1 = Some r ->
  exists m, ctx_exec powf m img c h = Some r.
Proof.
  intros ST H. induction ST as [|ca ha cb hb cc hc E ST IH]; [eauto|]. destruct (IH H) as [m M].
  exists (S m). cbn [ctx_exec]. now rewrite E.
Qed.

(** * Termination *)

Section Rank.
Variable img : image.
Let L := length (i_code img).

(** Upper bound on the instructions executed on behalf of one instruction when [k] more frames
    fit in the call stack. *)
Fixpoint cost (k : nat) : nat := match k with O => 1 | S k' => 1 + L * cost k' end.

Lemma cost_pos k : 1 <= cost k.
Proof. destruct k; cbn [cost]; lia. Qed.

Definition cost_at (max depth : nat) : nat := cost (max - depth).

Fixpoint frames_cost (max : nat) (stack : list frame) : nat :=
  match stack with
  | [] => 0
  | f :: rest => (L - S (f_pc f)) * cost_at max (length rest) + frames_cost max rest
  end.

Definition work (c : ctx) : nat :=
  (L - c_pc c) * cost_at (c_max c) (length (c_stack c)) + frames_cost (c_max c) (c_stack c).

Definition at_start (pc : nat) : bool :=
  match stmt_start img pc with Some b => b | None => false end.

Definition rank (c : ctx) : nat * nat :=
  if c_yield c then (0, if at_start (c_pc c) then 0 else S (work c)) else (1, S (work c)).

Definition rlt (a b : nat * nat) : Prop := fst a < fst b \/ fst a = fst b /\ snd a < snd b.

Lemma rlt_wf : well_founded rlt.
Proof.
  intros [a b]. revert b. induction a as [a IHa] using lt_wf_ind. intros b.
  induction b as [b IHb] using lt_wf_ind. constructor. intros [a' b'] [H|[H H']]; cbn in *.
  - apply IHa. assumption.
  - subst a'. apply IHb. assumption.
Qed.

Lemma rlt_trans a b c : rlt a b -> rlt b c -> rlt a c.
Proof. unfold rlt. lia. Qed.

Lemma mul_sub_lt a b k : a < b -> a < L -> 1 <= k -> (L - b) * k + k <= (L - a) * k.
Proof.
  intros. assert (L - b + 1 <= L - a) by lia.
  assert ((L - b + 1) * k <= (L - a) * k) by (apply Nat.mul_le_mono_r; assumption). lia.
Qed.

Lemma rank_same c c' : c_yield c = c_yield c' -> work c' < work c ->
  (c_yield c = true -> at_start (c_pc c) = false) -> rlt (rank c') (rank c).
Proof.
  intros Y W A. unfold rank. rewrite <- Y. destruct (c_yield c).
  - rewrite A by reflexivity. right. cbn. destruct (at_start (c_pc c')); split; lia.
  - right. cbn. split; lia.
Qed.

Lemma fetched_lt pc i : fetched img pc i -> pc < L.
Proof. intros (w & H & _). apply nth_error_Some. congruence. Qed.

Lemma forward_rank c c' : c_pc c < c_pc c' -> c_pc c < L ->
  c_stack c' = c_stack c -> c_max c' = c_max c -> c_yield c' = c_yield c ->
  (c_yield c = true -> at_start (c_pc c) = false) -> rlt (rank c') (rank c).
Proof.
  intros P HL S M Y A. apply rank_same; [congruence| |assumption].
  unfold work. rewrite S, M. unfold cost_at.
  pose proof (cost_pos (c_max c - length (c_stack c))).
  pose proof (mul_sub_lt (c_pc c) (c_pc c') (cost (c_max c - length (c_stack c)))). lia.
Qed.

Lemma to_yield_rank c c' : c_yield c = false -> c_yield c' = true -> rlt (rank c') (rank c).
Proof. intros H H'. unfold rank. rewrite H, H'. left. cbn. lia. Qed.

Hypothesis marked : backward_jumps_marked img.

Lemma step_rank c h c' h' : step img c h = RNext c' h' -> rlt (rank c') (rank c).
Proof.
  intros H. destruct (step_control _ _ _ _ _ H) as (i & F & M & C & Y).
  pose proof (fetched_lt _ _ F) as PL.
  assert (A : c_yield c = true -> at_start (c_pc c) = false).
  { intros E. unfold at_start. rewrite (Y E). reflexivity. }
  destruct C as [i P Fp S Yl _ _ | i t Hi -> | r t Lm -> | t Lm -> | f rest St P Fp S' _ RN RS].
  - apply forward_rank; auto. lia.
  - unfold jump_to. cbn [c_pc]. destruct (Nat.leb_spec (N.to_nat t) (c_pc c)) as [B|B].
    + destruct (c_yield c) eqn:YC; [|apply to_yield_rank; [assumption|reflexivity]].
      assert (JT : jumps_to img (c_pc c) (N.to_nat t)).
      { destruct F as (w & E & D). exists w, t. repeat split; [assumption|].
        destruct Hi as [->|[r ->]]; [left; assumption|right; exists r; assumption]. }
      destruct (marked _ _ JT B) as [T|T].
      * unfold rank. cbn. rewrite YC. unfold at_start at 1. rewrite T. rewrite A by reflexivity.
        right. cbn. lia.
      * rewrite (Y eq_refl) in T. discriminate.
    + apply forward_rank; auto.
  - apply rank_same; [reflexivity| |assumption]. unfold work. cbn [c_pc c_stack c_max length].
    cbn [frames_cost f_pc]. unfold cost_at.
    replace (c_max c - length (c_stack c)) with (S (c_max c - S (length (c_stack c)))) by lia.
    cbn [cost]. set (k := cost (c_max c - S (length (c_stack c)))).
    assert ((L - N.to_nat t) * k <= L * k) by (apply Nat.mul_le_mono_r; lia).
    pose proof (mul_sub_lt (c_pc c) (S (c_pc c)) (1 + L * k)). lia.
  - apply rank_same; [reflexivity| |assumption]. unfold work. cbn [c_pc c_stack c_max length].
    cbn [frames_cost f_pc]. unfold cost_at.
    replace (c_max c - length (c_stack c)) with (S (c_max c - S (length (c_stack c)))) by lia.
    cbn [cost]. set (k := cost (c_max c - S (length (c_stack c)))).
    assert ((L - N.to_nat t) * k <= L * k) by (apply Nat.mul_le_mono_r; lia).
    pose proof (mul_sub_lt (c_pc c) (S (c_pc c)) (1 + L * k)). lia.
  - assert (W : work c' < work c).
    { unfold work. rewrite St, S', P, M. cbn [length frames_cost]. unfold cost_at.
      pose proof (cost_pos (c_max c - S (length rest))).
      assert (1 * 1 <= (L - c_pc c) * cost (c_max c - S (length rest))) by (apply Nat.mul_le_mono; lia).
      lia. }
    destruct (f_ret f) as [r|] eqn:R.
    + destruct (RS r eq_refl) as [Yl _]. apply rank_same; auto.
    + destruct (RN eq_refl) as [Yl _]. destruct (c_yield c) eqn:YC; [|apply to_yield_rank; assumption].
      apply rank_same; auto. congruence.
Qed.

Lemma steps_rank c h c' h' : steps img c h c' h' -> rank c' = rank c \/ rlt (rank c') (rank c).
Proof.
  intros S. induction S; [left; reflexivity|right].
  pose proof (step_rank _ _ _ _ H). destruct IHS as [E|E]; [rewrite E; assumption|].
  eapply rlt_trans; eassumption.
Qed.

Lemma ctx_exec_stops : forall c h, exists n r, ctx_exec powf n img c h = Some r.
Proof.
  intros c. remember (rank c) as m eqn:E. revert c E.
  induction m as [m IH] using (well_founded_induction rlt_wf). intros c -> h.
  destruct (step img c h) as [c1 h1|s c1 h1|] eqn:S.
  - pose proof (step_rank _ _ _ _ S) as R.
    destruct (IH _ R c1 eq_refl h1) as (n & r & X). exists (Datatypes.S n), r. cbn. now rewrite S.
  - exists 1, (RStop s c1 h1). cbn. now rewrite S.
  - exists 1, RPanic. cbn. now rewrite S.
Qed.

End Rank.

(** * Calls *)

(** What holds of every state reached inside a call. *)
Definition inside (c c1 : ctx) (floor : nat) : Prop :=
  exists top, c_stack c1 = top ++ c_stack c /\
    floor <= c_fp c1 /\ Forall (fun f => floor <= f_fp f) top /\
    c_max c1 = c_max c /\
    forall k, 64 <= k < floor -> slot c1 k = slot c k.

Lemma inside_step img c c1 h1 c2 h2 floor : 64 <= floor ->
  inside c c1 floor -> step img c1 h1 = RNext c2 h2 -> length (c_stack c) <= length (c_stack c2) ->
  inside c c2 floor.
Proof.
  intros F64 (top & S & FP & FT & MX & SL) H LN.
  destruct (step_control _ _ _ _ _ H) as (i & F & M & C & Y).
  destruct C as [i P Fp St Yl _ RG | i t Hi -> | r t Lm -> | t Lm -> | f rest St P Fp S' _ RN RS].
  - exists top. rewrite St, Fp, M. repeat split; auto. intros k K. rewrite <- SL by assumption.
    destruct (RG k) as [X|[X|X]]; [lia|lia|assumption].
  - exists top. unfold jump_to. destruct (N.to_nat t <=? c_pc c1); cbn; repeat split; auto.
  - exists (mkFrame (c_pc c1) (c_fp c1) (Some r) :: top). cbn. rewrite S. repeat split; auto. lia.
  - exists (mkFrame (c_pc c1) (c_fp c1) None :: top). cbn. rewrite S. repeat split; auto.
  - destruct top as [|f0 top].
    + exfalso. cbn in S. rewrite S in St. rewrite S', St in LN. cbn in LN. lia.
    + cbn in S. rewrite S in St. injection St as -> <-. inversion FT as [|? ? FF FR]; subst.
      exists top. rewrite S', Fp, M. repeat split; auto.
      intros k K. rewrite <- SL by assumption. destruct (f_ret f) as [r|] eqn:R.
      * destruct (RS r eq_refl) as [_ W]. rewrite W.
        destruct (r <? 64)%N eqn:G; destruct (Nat.eqb_spec k (if (r <? 64)%N then N.to_nat r else N.to_nat (r - 64) + f_fp f)) as [E|E];
          rewrite G in *; try (rewrite E in K; lia);
          match goal with |- (if ?b then _ else _) = _ => destruct b eqn:Q end; auto;
          apply Nat.eqb_eq in Q; lia.
      * destruct (RN eq_refl) as [_ W]. unfold slot. rewrite W. reflexivity.
Qed.

Lemma inside_runs img c floor c1 h1 c2 h2 : 64 <= floor ->
  inside c c1 floor -> runs_above powf img (length (c_stack c)) c1 h1 c2 h2 -> inside c c2 floor.
Proof.
  intros F64 I R. revert I. induction R; intros I; [assumption|].
  apply IHR. eapply inside_step; eassumption.
Qed.

Lemma app_same_length {A} (a b c : list A) : a = b ++ c -> length a = length c -> b = [] /\ a = c.
Proof.
  intros -> H. rewrite app_length in H. destruct b; [split; reflexivity|cbn in H; lia].
Qed.

Lemma call_returns img c h c1 h1 c2 h2 c3 h3 reg target :
  (64 <= reg)%N -> 64 <= c_fp c ->
  fetched img (c_pc c) (ICall reg target) -> step img c h = RNext c1 h1 ->
  runs_above powf img (length (c_stack c1)) c1 h1 c2 h2 ->
  length (c_stack c2) = length (c_stack c1) ->
  fetched img (c_pc c2) IReturn -> step img c2 h2 = RNext c3 h3 ->
  c_pc c1 = N.to_nat target /\ h1 = h /\ h3 = h2 /\
  c_pc c3 = S (c_pc c) /\ c_fp c3 = c_fp c /\ c_stack c3 = c_stack c /\
  get_reg c3 reg = slot c2 (c_fp c2) /\
  forall k, 64 <= k < c_fp c + N.to_nat (reg - 64) -> slot c3 k = slot c k.
Proof.
  intros G F64 F1 S1 R L F2 S2.
  destruct (step_next _ _ _ _ _ S1) as (i & F1' & D1 & _).
  assert (i = ICall reg target) as -> by (destruct F1 as (? & ? & ?), F1' as (? & ? & ?); congruence).
  destruct (step_next _ _ _ _ _ S2) as (i & F2' & D2 & _).
  assert (i = IReturn) as -> by (destruct F2 as (? & ? & ?), F2' as (? & ? & ?); congruence).
  cbn [Vm_Model.dispatch] in D1. unfold push_frame, set_exception in D1.
  destruct (Nat.leb_spec (c_max c) (length (c_stack c))); [discriminate|]. cbn in D1.
  injection D1 as <- <-.
  set (c1 := mkCtx (N.to_nat target) (c_fp c + N.to_nat (snd (register_to_parts reg))) (c_handler c)
               (c_regs c) (mkFrame (c_pc c) (c_fp c) (Some reg) :: c_stack c) (c_max c) (c_yield c)) in *.
  assert (EI : snd (register_to_parts reg) = (reg - 64)%N).
  { unfold register_to_parts, max_global. destruct (N.ltb_spec reg 64); [lia|reflexivity]. }
  assert (I : inside c1 c1 (c_fp c + N.to_nat (reg - 64))).
  { exists []. cbn. rewrite EI. repeat split; auto. }
  pose proof (inside_runs img c1 (c_fp c + N.to_nat (reg - 64)) c1 h c2 h2 ltac:(lia) I R)
    as (top & ST & FP & FT & MX & SL).
  destruct (app_same_length _ _ _ ST L) as [-> ST']. clear ST.
  cbn [Vm_Model.dispatch] in D2. unfold do_return in D2. rewrite ST' in D2. cbn [c1 c_stack f_ret f_pc f_fp] in D2.
  injection D2 as <- <-.
  repeat split.
  - rewrite get_reg_slot, slot_set_reg.
    change (reg_index (set_reg _ reg _) reg) with (reg_index c reg) at 1.
    match goal with |- context [if ?a =? ?b then _ else _] => replace (a =? b) with true end.
    + rewrite get_reg_slot. unfold reg_index, register_to_parts, max_global.
      replace (64 <? 64)%N with false by reflexivity. replace (N.to_nat (64 - 64)) with 0 by reflexivity. reflexivity.
    + symmetry. apply Nat.eqb_eq. reflexivity.
  - intros k K. rewrite slot_set_reg.
    match goal with |- context [if ?a =? ?b then _ else _] => destruct (Nat.eqb_spec a b) as [E|E] end.
    + exfalso. revert E. unfold reg_index. cbn [c_fp].
      unfold register_to_parts, max_global. destruct (N.ltb_spec reg 64); lia.
    + change (slot c2 k = slot c k). rewrite SL by lia. reflexivity.
Qed.

Lemma gosub_returns img c h c1 h1 c2 h2 c3 h3 target :
  fetched img (c_pc c) (IGosub target) -> step img c h = RNext c1 h1 ->
  runs_above powf img (length (c_stack c1)) c1 h1 c2 h2 ->
  length (c_stack c2) = length (c_stack c1) ->
  fetched img (c_pc c2) IReturn -> step img c2 h2 = RNext c3 h3 ->
  c_pc c1 = N.to_nat target /\ c_regs c1 = c_regs c /\ c_fp c1 = c_fp c /\ h1 = h /\ h3 = h2 /\
  c_pc c3 = S (c_pc c) /\ c_fp c3 = c_fp c /\ c_stack c3 = c_stack c /\ c_regs c3 = c_regs c2 /\
  c_yield c3 = true.
Proof.
  intros F1 S1 R L F2 S2.
  destruct (step_next _ _ _ _ _ S1) as (i & F1' & D1 & _).
  assert (i = IGosub target) as -> by (destruct F1 as (? & ? & ?), F1' as (? & ? & ?); congruence).
  destruct (step_next _ _ _ _ _ S2) as (i & F2' & D2 & _).
  assert (i = IReturn) as -> by (destruct F2 as (? & ? & ?), F2' as (? & ? & ?); congruence).
  cbn [Vm_Model.dispatch] in D1. unfold push_frame, set_exception in D1.
  destruct (Nat.leb_spec (c_max c) (length (c_stack c))); [discriminate|]. cbn in D1.
  injection D1 as <- <-.
  match goal with R : runs_above _ _ _ ?x _ _ _ |- _ => set (c1 := x) in * end.
  assert (ST : exists top, c_stack c2 = top ++ c_stack c1).
  { assert (G : forall ca ha cb hb, runs_above powf img (length (c_stack c1)) ca ha cb hb ->
       (exists top, c_stack ca = top ++ c_stack c1) -> exists top, c_stack cb = top ++ c_stack c1).
    { clear. intros ca ha cb hb R. induction R; intros T; [assumption|]. apply IHR. clear IHR R.
      destruct T as [top T]. destruct (step_control _ _ _ _ _ H) as (i & F & M & C & Y).
      destruct C as [i P Fp St Yl _ RG | i t Hi -> | r t Lm -> | t Lm -> | f rest St P Fp S' _ RN RS].
      - exists top. congruence.
      - exists top. unfold jump_to. destruct (_ <=? _); cbn; assumption.
      - eexists (_ :: top). cbn. rewrite T. reflexivity.
      - eexists (_ :: top). cbn. rewrite T. reflexivity.
      - destruct top as [|f0 top].
        + exfalso. rewrite S' in H0. rewrite T in St. apply (f_equal (@length _)) in St. cbn in St, H0. lia.
        + exists top. rewrite S'. rewrite T in St. cbn [app] in St. injection St as _ <-. reflexivity. }
    eapply G; [eassumption|]. exists []. reflexivity. }
  destruct ST as [top ST]. destruct (app_same_length _ _ _ ST L) as [-> ST'].
  cbn [Vm_Model.dispatch] in D2. unfold do_return in D2. rewrite ST' in D2.
  cbn in D2. injection D2 as <- <-. repeat split.
Qed.

(** * Error handling *)

Lemma find_stmt_start_spec metas : forall pc,
  match find_stmt_start pc metas with
  | Some q => pc <= q /\ (exists m, nth_error metas (q - pc) = Some m /\ m_stmt_start m = true) /\
              forall k m, k < q - pc -> nth_error metas k = Some m -> m_stmt_start m = false
  | None => forall k m, nth_error metas k = Some m -> m_stmt_start m = false
  end.
Proof.
  induction metas as [|m r IH]; intros pc; cbn [find_stmt_start].
  - intros k m H. destruct k; discriminate.
  - destruct (m_stmt_start m) eqn:E.
    + split; [lia|]. split; [exists m; rewrite Nat.sub_diag; split; [reflexivity|assumption]|]. lia.
    + specialize (IH (S pc)). destruct (find_stmt_start (S pc) r) as [q|].
      * destruct IH as (L & (m' & N & T) & F). split; [lia|]. split.
        -- exists m'. replace (q - pc) with (S (q - S pc)) by lia. split; assumption.
        -- intros k m0 K N0. destruct k as [|k]; [cbn in N0; congruence|].
           apply (F k); [lia|exact N0].
      * intros k m0 N0. destruct k as [|k]; [cbn in N0; congruence|]. eapply IH. exact N0.
Qed.

Lemma nth_error_skipn {A} (l : list A) n k : nth_error (skipn n l) k = nth_error l (n + k).
Proof.
  revert l. induction n as [|n IH]; intros [|x l]; cbn [skipn]; try reflexivity.
  - destruct k; reflexivity.
  - rewrite IH. reflexivity.
Qed.

Lemma resume_point_next img pc : next_statement img pc (resume_point img pc).
Proof.
  unfold resume_point, next_statement, stmt_start.
  pose proof (find_stmt_start_spec (skipn (S pc) (i_meta img)) (S pc)) as H.
  destruct (find_stmt_start (S pc) (skipn (S pc) (i_meta img))) as [q|].
  - left. destruct H as (L & (m & N & T) & F). split; [lia|].
    rewrite nth_error_skipn in N. replace (S pc + (q - S pc)) with q in N by lia. split.
    + rewrite N, T. reflexivity.
    + intros k K. specialize (F (k - S pc)).
      destruct (nth_error (i_meta img) k) as [mk|] eqn:E; [|discriminate].
      rewrite (F mk); [discriminate|lia|]. rewrite nth_error_skipn.
      replace (S pc + (k - S pc)) with k by lia. assumption.
  - right. split; [reflexivity|]. intros k K. specialize (H (k - S pc)).
    destruct (nth_error (i_meta img) k) as [mk|] eqn:E; [|discriminate].
    rewrite (H mk); [discriminate|]. rewrite nth_error_skipn.
    replace (S pc + (k - S pc)) with k by lia. assumption.
Qed.

Lemma next_statement_gt img pc q : next_statement img pc q -> pc < length (i_code img) -> pc < q.
Proof. intros [(H & _)|(-> & _)] L; assumption. Qed.

(** * Arrays *)

Lemma read_subs_gen c first : forall subs i,
  (first + N.of_nat (i + length subs) <= 192)%N ->
  (forall k s, nth_error subs k = Some s -> as_i32 (slot c (c_fp c + N.to_nat first + (i + k))) = s) ->
  read_subs c first i (length subs) = Some subs.
Proof.
  induction subs as [|s subs IH]; intros i B H; cbn [length read_subs]; [reflexivity|].
  cbn [length] in B. unfold register_local, max_global, max_register in *.
  destruct (N.leb_spec (first + N.of_nat i + 64) 255) as [L|L]; [|lia].
  rewrite IH.
  - f_equal. f_equal. rewrite <- (H 0 s eq_refl). f_equal. rewrite get_reg_slot. f_equal.
    unfold reg_index, register_to_parts, max_global.
    destruct (N.ltb_spec (first + N.of_nat i + 64) 64); [lia|]. lia.
  - lia.
  - intros k s' E. rewrite <- (H (S k) s' E). do 2 f_equal. lia.
Qed.

Lemma read_subs_holds c first subs : holds_subs c first subs ->
  read_subs c (snd (register_to_parts first)) 0 (length subs) = Some subs.
Proof.
  intros (A & B & H). unfold register_to_parts, max_global.
  destruct (N.ltb_spec first 64); [lia|]. cbn [snd]. apply read_subs_gen; [lia|].
  intros k s E. exact (H k s E).
Qed.

Lemma resolve_ok c arr first h i dims vals subs :
  (i < 2 ^ 24)%N -> get_reg c arr = ptr_for_heap i -> heap_get h i = Some (HArray dims vals) ->
  holds_subs c first subs -> length subs = length dims ->
  resolve_array_index c arr first h =
    Some (match flat_index dims subs with Ok k => Ok (i, k) | Err e => Err e end).
Proof.
  intros L G H S E. unfold resolve_array_index. rewrite G, ptr_from_heap by assumption.
  cbn [heap_index]. rewrite H, <- E, (read_subs_holds _ _ _ S). destruct (flat_index dims subs); reflexivity.
Qed.

Lemma valid_subs_length dims subs : valid_subs dims subs -> length subs = length dims.
Proof. intros H. induction H; cbn [length]; congruence. Qed.

Lemma heap_get_set h i d j : (i < heap_len h)%N ->
  heap_get (heap_set h i d) j = if (j =? i)%N then Some d else heap_get h j.
Proof.
  unfold heap_get, heap_set, heap_len. cbn [h_data]. intros L.
  destruct (N.eqb_spec j i) as [->|N].
  - apply upd_nth_same. lia.
  - apply upd_nth_other. lia.
Qed.

Lemma heap_get_lt h i d : heap_get h i = Some d -> (i < heap_len h)%N.
Proof. unfold heap_get, heap_len. intros H. assert (N.to_nat i < length (h_data h)) by (apply nth_error_Some; congruence). lia. Qed.

Lemma store_array img c h arr val first i dims subs :
  names_array c h arr i -> rank_of h i dims -> holds_subs c first subs -> valid_subs dims subs ->
  exists h', dispatch img c h (I3 StoreArray arr val first) = RNext (next_pc c) h' /\
    element h' i subs (get_reg c val) /\
    (forall j subs' v, (j <> i \/ subs' <> subs) -> (element h' j subs' v <-> element h j subs' v)) /\
    (forall j s, heap_get h' j = Some (HText s) <-> heap_get h j = Some (HText s)) /\
    (forall j ds, rank_of h' j ds <-> rank_of h j ds) /\ heap_len h' = heap_len h.
Proof.
  intros (L & G & dims' & vals & H & LV) (vals' & H') S V.
  assert (dims' = dims /\ vals' = vals) as [-> ->] by (rewrite H in H'; injection H'; auto). clear H'.
  pose proof (valid_subs_length _ _ V) as LS. pose proof (heap_get_lt _ _ _ H) as HL.
  pose proof (position_lt _ _ V) as PL.
  cbn [Vm_Model.dispatch do_op3]. unfold do_store_array.
  rewrite (resolve_ok c arr first h i dims vals subs), flat_index_ok, H by assumption.
  destruct (N.ltb_spec (position dims subs) (N.of_nat (length vals))); [|lia].
  eexists. split; [reflexivity|]. repeat apply conj.
  - exists dims, (upd vals (N.to_nat (position dims subs)) (get_reg c val)).
    rewrite heap_get_set, N.eqb_refl by assumption. repeat split; [assumption|].
    apply upd_nth_same. lia.
  - intros j subs' v D. unfold element. rewrite heap_get_set by assumption.
    destruct (N.eqb_spec j i) as [->|N].
    + destruct D as [D|D]; [congruence|]. split.
      * intros (ds & vs & E & V' & X). injection E as <- <-. exists dims, vals. repeat split; auto.
        rewrite upd_nth_other in X; [assumption|]. intros E.
        apply D. eapply position_inj; try eassumption. lia.
      * intros (ds & vs & E & V' & X). rewrite H in E. injection E as <- <-.
        eexists _, _. split; [reflexivity|]. split; [assumption|].
        rewrite upd_nth_other; [assumption|]. intros E.
        apply D. eapply position_inj; try eassumption. lia.
    + tauto.
  - intros j s. rewrite heap_get_set by assumption. destruct (N.eqb_spec j i) as [->|N]; [|tauto].
    rewrite H. split; discriminate.
  - intros j ds. unfold rank_of. rewrite heap_get_set by assumption.
    destruct (N.eqb_spec j i) as [->|N]; [|tauto]. rewrite H. split; intros [vs E]; injection E as <- _; eauto.
  - unfold heap_len, heap_set. cbn [h_data]. rewrite upd_length. reflexivity.
Qed.

Lemma load_array img c h d arr first i dims subs :
  names_array c h arr i -> rank_of h i dims -> holds_subs c first subs -> valid_subs dims subs ->
  exists v, element h i subs v /\
    dispatch img c h (I3 LoadArray d arr first) = RNext (next_pc (set_reg c d v)) h.
Proof.
  intros (L & G & dims' & vals & H & LV) (vals' & H') S V.
  assert (dims' = dims /\ vals' = vals) as [-> ->] by (rewrite H in H'; injection H'; auto). clear H'.
  pose proof (valid_subs_length _ _ V) as LS. pose proof (position_lt _ _ V) as PL.
  destruct (nth_error vals (N.to_nat (position dims subs))) as [v|] eqn:E.
  - exists v. split; [exists dims, vals; auto|].
    cbn [Vm_Model.dispatch do_op3]. unfold do_load_array.
    rewrite (resolve_ok c arr first h i dims vals subs), flat_index_ok, H, E by assumption. reflexivity.
  - apply nth_error_None in E. lia.
Qed.

Lemma array_bad_subscript img c h arr first i dims subs :
  names_array c h arr i -> rank_of h i dims -> holds_subs c first subs ->
  length subs = length dims -> ~ valid_subs dims subs ->
  exists s d, first_bad dims subs s d /\
    let e := XSubscript (if (s <? 0)%Z then SubNegative s else SubExceeds (Z.to_N s) d) in
    (forall val, dispatch img c h (I3 StoreArray arr val first) = RStop (SException (c_pc c) e) c h) /\
    (forall dest, dispatch img c h (I3 LoadArray dest arr first) = RStop (SException (c_pc c) e) c h).
Proof.
  intros (L & G & dims' & vals & H & LV) (vals' & H') S LS NV.
  assert (dims' = dims /\ vals' = vals) as [-> ->] by (rewrite H in H'; injection H'; auto). clear H'.
  destruct (proj2 (flat_index_char dims subs LS) NV) as (s & d & B & E).
  exists s, d. split; [assumption|]. cbv zeta. split; intros; cbn [Vm_Model.dispatch do_op3];
    unfold do_load_array, do_store_array; rewrite (resolve_ok c arr first h i dims vals subs), E by assumption;
    reflexivity.
Qed.

Lemma read_dims_ok c first : forall zs i,
  (first + N.of_nat (i + length zs) <= 192)%N ->
  (forall k s, nth_error zs k = Some s -> as_i32 (slot c (c_fp c + N.to_nat first + (i + k))) = s) ->
  (Forall (fun z => (0 < z)%Z) zs /\ read_dims c first i (length zs) = Some (Ok (map Z.to_N zs))) \/
  (exists k z, first_nonpositive zs k z /\ read_dims c first i (length zs) = Some (Err (i + k))).
Proof.
  induction zs as [|s zs IH]; intros i B H; cbn [length read_dims]; [left; split; [constructor|reflexivity]|].
  cbn [length] in B. unfold register_local, max_global, max_register in *.
  destruct (N.leb_spec (first + N.of_nat i + 64) 255) as [L|L]; [|lia].
  assert (G : as_i32 (get_reg c (first + N.of_nat i + 64)) = s).
  { rewrite <- (H 0 s eq_refl). f_equal. rewrite get_reg_slot. f_equal.
    unfold reg_index, register_to_parts, max_global.
    destruct (N.ltb_spec (first + N.of_nat i + 64) 64); [lia|]. lia. }
  rewrite G. destruct (Z.leb_spec s 0) as [Hs|Hs].
  - right. exists 0, s. split.
    + split; [reflexivity|]. split; [assumption|]. intros; lia.
    + rewrite Nat.add_0_r. reflexivity.
  - destruct (IH (S i)) as [[F E]|(k & z & (Z1 & Z2 & Z3) & E)].
    + lia.
    + intros k s' E. rewrite <- (H (S k) s' E). do 2 f_equal. lia.
    + left. rewrite E. split; [constructor; assumption|reflexivity].
    + right. exists (S k), z. rewrite E. split.
      * split; [exact Z1|]. split; [assumption|]. intros [|q] y Q Y; [cbn in Y; congruence|].
        apply (Z3 q); [lia|exact Y].
      * do 2 f_equal. lia.
Qed.

Lemma dims_total_product ds : dims_total ds = product ds.
Proof.
  unfold dims_total. enough (G : forall a, fold_left N.mul ds a = (a * product ds)%N) by (rewrite G; lia).
  induction ds as [|d ds IH]; intros a; cbn [fold_left product]; [lia|]. rewrite IH. lia.
Qed.

Lemma alloc_array img c h dest packed t first zs :
  heap_ok h -> packed_subtype packed = Some t -> N.to_nat (packed_ndims packed) = length zs ->
  holds_subs c first zs -> Forall (fun z => (0 < z)%Z) zs -> (product (map Z.to_N zs) < 2 ^ 60)%N ->
  (heap_len h < 2 ^ 24)%N -> (heap_len h < h_max h)%N ->
  exists h', let i := heap_len h in
    dispatch img c h (IAllocArray dest packed first) =
      RNext (next_pc (set_reg c dest (ptr_for_heap i))) h' /\
    rank_of h' i (map Z.to_N zs) /\
    names_array (next_pc (set_reg c dest (ptr_for_heap i))) h' dest i /\
    (forall subs, valid_subs (map Z.to_N zs) subs ->
       element h' i subs (match t with TText => empty_text_ptr h | _ => 0%N end)) /\
    (forall j d, heap_get h j = Some d -> heap_get h' j = Some d) /\ heap_len h' = (heap_len h + 1)%N.
Proof.
  intros HO PS PN (A & B & H) F PL HL1 HL2.
  assert (RT : register_to_parts first = (false, first - 64)%N).
  { unfold register_to_parts, max_global. destruct (N.ltb_spec first 64); [lia|reflexivity]. }
  set (zero := match t with TText => empty_text_ptr h | _ => 0%N end).
  exists (mkHeap (h_data h ++ [HArray (map Z.to_N zs) (repeat zero (N.to_nat (product (map Z.to_N zs))))]) (h_max h)).
  cbv zeta.
  assert (HG : forall j d, heap_get h j = Some d -> heap_get (mkHeap (h_data h ++ [HArray (map Z.to_N zs) (repeat zero (N.to_nat (product (map Z.to_N zs))))]) (h_max h)) j = Some d).
  { intros j d E. unfold heap_get in *. cbn [h_data]. apply nth_error_app_some. assumption. }
  assert (NEW : heap_get (mkHeap (h_data h ++ [HArray (map Z.to_N zs) (repeat zero (N.to_nat (product (map Z.to_N zs))))]) (h_max h)) (heap_len h)
     = Some (HArray (map Z.to_N zs) (repeat zero (N.to_nat (product (map Z.to_N zs)))))).
  { unfold heap_get, heap_len. cbn [h_data]. rewrite Nat2N.id, nth_error_app2 by lia.
    rewrite Nat.sub_diag. reflexivity. }
  split.
  - cbn [Vm_Model.dispatch]. unfold do_alloc_array. rewrite PS, RT, PN. cbn [snd].
    destruct (read_dims_ok c (first - 64)%N zs 0) as [[_ E]|(k & z & (Z1 & Z2 & _) & _)].
    + lia.
    + exact H.
    + rewrite E, dims_total_product.
      destruct (N.leb_spec (2 ^ 60)%N (product (map Z.to_N zs))); [lia|]. cbv zeta. fold zero.
      rewrite heap_push_nonempty by discriminate.
      destruct (N.leb_spec (2 ^ 24)%N (heap_len h)); [lia|].
      destruct (N.leb_spec (h_max h) (heap_len h)); [lia|]. reflexivity.
    + exfalso. rewrite Forall_forall in F. apply nth_error_In in Z1. specialize (F _ Z1). lia.
  - split; [eexists; exact NEW|]. split; [|split; [|split; [exact HG|]]].
    + split; [assumption|]. split.
      * rewrite get_reg_slot. change (slot (next_pc (set_reg c dest (ptr_for_heap (heap_len h)))) (reg_index (next_pc (set_reg c dest (ptr_for_heap (heap_len h)))) dest))
          with (slot (set_reg c dest (ptr_for_heap (heap_len h))) (reg_index c dest)).
        rewrite slot_set_reg, Nat.eqb_refl. reflexivity.
      * eexists _, _. split; [exact NEW|]. rewrite repeat_length. lia.
    + intros subs V. eexists _, _. split; [exact NEW|]. split; [assumption|].
      pose proof (position_lt _ _ V). apply nth_error_repeat. lia.
    + unfold heap_len. cbn [h_data]. rewrite app_length. cbn [length]. lia.
Qed.

Lemma alloc_array_bad img c h dest packed t first zs k z :
  packed_subtype packed = Some t -> N.to_nat (packed_ndims packed) = length zs ->
  holds_subs c first zs -> first_nonpositive zs k z ->
  dispatch img c h (IAllocArray dest packed first) = RStop (SException (c_pc c) (XDimension k)) c h.
Proof.
  intros PS PN (A & B & H) (Z1 & Z2 & Z3).
  assert (RT : register_to_parts first = (false, first - 64)%N).
  { unfold register_to_parts, max_global. destruct (N.ltb_spec first 64); [lia|reflexivity]. }
  cbn [Vm_Model.dispatch]. unfold do_alloc_array. rewrite PS, RT, PN. cbn [snd].
  destruct (read_dims_ok c (first - 64)%N zs 0) as [[F _]|(k' & z' & (Z1' & Z2' & Z3') & E)].
  - lia.
  - exact H.
  - exfalso. rewrite Forall_forall in F. apply nth_error_In in Z1. specialize (F _ Z1). lia.
  - rewrite E. cbn [Nat.add]. assert (k' = k) as ->; [|reflexivity].
    destruct (Nat.lt_trichotomy k k') as [X|[X|X]]; [|congruence|].
    + specialize (Z3' _ _ X Z1). lia.
    + specialize (Z3 _ _ X Z1'). lia.
Qed.

Lemma runs_steps img d c h c' h' : runs_above powf img d c h c' h' -> steps img c h c' h'.
Proof. intros R. induction R; econstructor; eassumption. Qed.

Section Vm.
Variable W : Type.
Variable upcall : N -> N -> nat -> image -> ctx -> heap -> W -> option (upcall_result W).
Notation vm_exec := (vm_exec powf W upcall).
Notation vm_turn := (vm_turn powf W upcall).
Notation run_upcall := (run_upcall W upcall).

Lemma vm_turn_mono img n k v r : n <= k -> vm_turn n img v = Some r -> vm_turn k img v = Some r.
Proof.
  intros L. unfold Vm_Model.vm_turn. destruct (v_pending W v); [auto|].
  destruct (ctx_exec powf n img (v_ctx W v) (v_heap W v)) as [x|] eqn:E; [|discriminate].
  rewrite (ctx_exec_mono _ _ _ _ _ _ E L). auto.
Qed.

Lemma vm_exec_mono img n : forall k v r, vm_exec n img v = Some r -> n <= k -> vm_exec k img v = Some r.
Proof.
  induction n as [|n IH]; intros k v r H L; [discriminate|]. destruct k as [|k]; [lia|].
  cbn [Vm_Model.vm_exec] in *. destruct (vm_turn (S n) img v) as [[v'|x]|] eqn:T; [| |discriminate].
  - rewrite (vm_turn_mono img (S n) (S k) v _ ltac:(lia) T). apply IH; [assumption|lia].
  - rewrite (vm_turn_mono img (S n) (S k) v _ ltac:(lia) T). assumption.
Qed.

(** One turn, without mentioning fuel. *)
Definition turns img v x := exists n, vm_turn n img v = Some x.

Lemma turns_fun img v x y : turns img v x -> turns img v y -> x = y.
Proof.
  intros [n X] [m Y]. pose proof (vm_turn_mono img n (Nat.max n m) v x ltac:(lia) X).
  pose proof (vm_turn_mono img m (Nat.max n m) v y ltac:(lia) Y). congruence.
Qed.

Lemma vm_runs_continue img v v' r :
  turns img v (inl v') -> (vm_runs powf upcall img v r <-> vm_runs powf upcall img v' r).
Proof.
  intros [n T]. split; intros [m E].
  - destruct m as [|m]; [discriminate|]. cbn in E.
    destruct (vm_turn (S m) img v) as [x|] eqn:X; [|discriminate].
    assert (x = inl v') as -> by (eapply turns_fun; [exists (S m); exact X|exists n; exact T]).
    exists m. exact E.
  - exists (S (Nat.max n m)). cbn. rewrite (vm_turn_mono img n (S (Nat.max n m)) v _ ltac:(lia) T).
    eapply vm_exec_mono; [exact E|lia].
Qed.

Lemma vm_runs_stop img v r : turns img v (inr r) -> vm_runs powf upcall img v r.
Proof.
  intros [n T]. exists (S n). cbn. rewrite (vm_turn_mono img n (S n) v _ ltac:(lia) T). reflexivity.
Qed.

Lemma vm_runs_fun img v r r' : vm_runs powf upcall img v r -> vm_runs powf upcall img v r' -> r = r'.
Proof.
  intros [n X] [m Y]. pose proof (vm_exec_mono img n (Nat.max n m) v r X ltac:(lia)).
  pose proof (vm_exec_mono img m (Nat.max n m) v r' Y ltac:(lia)). congruence.
Qed.

(** Running instructions inside the machine does not change what it eventually returns. *)
Lemma turn_of_stop img v c h s c' h' :
  v_pending W v = None -> steps img (v_ctx W v) (v_heap W v) c h -> step img c h = RStop s c' h' ->
  exists n, ctx_exec powf n img (v_ctx W v) (v_heap W v) = Some (RStop s c' h').
Proof.
  intros P S E. eapply steps_ctx_exec; [eassumption|]. instantiate (1 := 1). cbn. now rewrite E.
Qed.

Lemma turn_exception img v c h pc e m :
  v_pending W v = None -> steps img (v_ctx W v) (v_heap W v) c h ->
  step img c h = RStop (SException pc e) c h -> nth_error (i_meta img) pc = Some m ->
  turns img v
    (match c_handler c with
     | HNone | HJump true _ =>
         inr (VStop W (VException (m_pos m) e)
                (mkVm W (park_at_eof img c) h (Some (m_pos m, e)) None (v_world W v)))
     | HJump false addr =>
         inl (mkVm W (set_pc (set_handler c (HJump true addr)) addr) h (Some (m_pos m, e)) None (v_world W v))
     | HResumeNext =>
         inl (mkVm W (set_pc c (resume_point img pc)) h (Some (m_pos m, e)) None (v_world W v))
     end).
Proof.
  intros P S E M. destruct (turn_of_stop _ _ _ _ _ _ _ P S E) as [n X].
  exists n. unfold Vm_Model.vm_turn. rewrite P, X, M. unfold handle_exception. cbn [v_ctx v_heap v_pending v_world].
  destruct (c_handler c) as [|[|] addr|]; reflexivity.
Qed.

Lemma raises_turn img v c h w pc pos e :
  v_pending W v = None -> raises powf upcall img v c h w pc pos e ->
  turns img v
    (match c_handler c with
     | HNone | HJump true _ =>
         inr (VStop W (VException pos e)
                (mkVm W (set_pc c (length (i_code img) - 1)) h (Some (pos, e)) None w))
     | HJump false addr =>
         inl (mkVm W (set_pc (set_handler c (HJump true addr)) addr) h (Some (pos, e)) None w)
     | HResumeNext =>
         inl (mkVm W (set_pc c (resume_point img pc)) h (Some (pos, e)) None w)
     end).
Proof.
  intros P R. destruct R as [c h pc e m R S M | c h c' h' idx first pc r p msg m R S U F M].
  - apply turn_exception; auto. eapply runs_steps. eassumption.
  - destruct (turn_of_stop _ _ _ _ _ _ _ P (runs_steps _ _ _ _ _ _ R) S) as [n X].
    exists n. unfold Vm_Model.vm_turn. rewrite P, X.
    unfold Vm_Model.run_upcall. cbn [v_ctx v_heap v_world]. rewrite U, F, M. unfold handle_exception.
    cbn [v_ctx v_heap v_pending v_world v_last_error set_regs c_handler].
    destruct (c_handler c') as [|[|] addr|]; reflexivity.
Qed.

(** Termination of the whole machine. *)

Definition handler_ok (c : ctx) : Prop := forall a, c_handler c <> HJump false a.

Lemma step_handler img c h c' h' : no_jump_handlers img ->
  step img c h = RNext c' h' -> handler_ok c -> handler_ok c'.
Proof.
  intros NJ H K a E. destruct (step_control _ _ _ _ _ H) as (i & F & M & C & Y).
  destruct C as [i P Fp S Yl HH _ | i t Hi -> | r t Lm -> | t Lm -> | f rest S P Fp S' HH RN RS].
  - destruct HH as [HH|(m & t & -> & HH)]; [apply (K a); congruence|].
    destruct m; rewrite HH in E; try discriminate.
    destruct F as (w & Fw & D). exact (NJ _ _ _ Fw D).
  - unfold jump_to in E. destruct (_ <=? _); cbn in E; exact (K a E).
  - exact (K a E).
  - exact (K a E).
  - apply (K a). congruence.
Qed.

Lemma steps_handler img c h c' h' : no_jump_handlers img ->
  steps img c h c' h' -> handler_ok c -> handler_ok c'.
Proof. intros NJ S. induction S; intros K; [assumption|]. apply IHS. eapply step_handler; eassumption. Qed.

Lemma at_start_false img c : (c_yield c = true -> stmt_start img (c_pc c) = Some false) ->
  c_yield c = true -> at_start img (c_pc c) = false.
Proof. intros H Y. unfold at_start. rewrite (H Y). reflexivity. Qed.

Lemma vm_stops img : backward_jumps_marked img -> no_jump_handlers img ->
  forall v, handler_ok (v_ctx W v) -> exists r, vm_runs powf upcall img v r.
Proof.
  intros BM NJ v. remember (rank img (v_ctx W v)) as m eqn:E. revert v E.
  induction m as [m IH] using (well_founded_induction rlt_wf). intros v -> K.
  destruct (v_pending W v) as [pd|] eqn:P.
  { exists (VStop W VUpcallAsync v), 1. cbn. unfold Vm_Model.vm_turn. rewrite P. reflexivity. }
  destruct (ctx_exec_stops img BM (v_ctx W v) (v_heap W v)) as (n & r & X).
  destruct (ctx_exec_steps _ _ _ _ _ X) as (c1 & h1 & S & Sr).
  pose proof (steps_rank img BM _ _ _ _ S) as RK.
  pose proof (steps_handler img _ _ _ _ NJ S K) as K1.
  assert (CONT : forall v', turns img v (inl v') -> rlt (rank img (v_ctx W v')) (rank img c1) ->
            handler_ok (v_ctx W v') -> exists r, vm_runs powf upcall img v r).
  { intros v' T R K'. destruct (IH (rank img (v_ctx W v'))) with (v := v') as [r' R']; try reflexivity; [|assumption|].
    - destruct RK as [<-|RK]; [assumption|eapply rlt_trans; eassumption].
    - exists r'. apply (vm_runs_continue img v v' r' T). assumption. }
  destruct r as [c' h'|s c' h'|].
  - exfalso. eapply ctx_exec_not_next. exact X.
  - destruct s as [code| |pc e|idx first pc|idx first pc|].
    + exists (VStop W (VEnd code) (park W img (mkVm W c' h' (v_last_error W v) (v_pending W v) (v_world W v)))).
      apply vm_runs_stop. exists n. unfold Vm_Model.vm_turn. rewrite P, X. reflexivity.
    + eexists. apply vm_runs_stop. exists n. unfold Vm_Model.vm_turn. rewrite P, X. reflexivity.
    + destruct (step_exception _ _ _ _ _ _ _ Sr) as (-> & -> & -> & PL & Y).
      destruct (nth_error (i_meta img) (c_pc c1)) as [mt|] eqn:MT.
      * pose proof (turn_exception img v c1 h1 _ _ _ P S Sr MT) as T.
        destruct (c_handler c1) as [|[|] a|] eqn:HD.
        -- eexists. apply vm_runs_stop. exact T.
        -- eexists. apply vm_runs_stop. exact T.
        -- exfalso. exact (K1 a HD).
        -- eapply CONT; [exact T| |].
           ++ cbn [v_ctx]. apply forward_rank; try reflexivity; cbn [set_pc c_pc].
              ** eapply next_statement_gt; [apply resume_point_next|assumption].
              ** assumption.
              ** apply at_start_false. assumption.
           ++ cbn [v_ctx]. intros a. cbn. congruence.
      * exists (VPanic W). apply vm_runs_stop. exists n. unfold Vm_Model.vm_turn. rewrite P, X, MT. reflexivity.
    + destruct (step_upcall _ _ _ _ _ _ _ _ _ (or_introl eq_refl) Sr) as (-> & -> & -> & PL & Y).
      set (v1 := mkVm W (next_pc c1) h1 (v_last_error W v) (v_pending W v) (v_world W v)).
      destruct (run_upcall img v1 idx first (c_pc c1)) as [[v2 [[pos e]|]]|] eqn:RU.
      * eexists. apply vm_runs_stop. exists n. unfold Vm_Model.vm_turn. rewrite P, X. fold v1. rewrite <- P in *. 
        change (mkVm W (next_pc c1) h1 (v_last_error W v) (v_pending W v) (v_world W v)) with v1. rewrite RU. reflexivity.
      * assert (T : turns img v (inl v2)).
        { exists n. unfold Vm_Model.vm_turn. rewrite P, X. rewrite <- P.
          change (mkVm W (next_pc c1) h1 (v_last_error W v) (v_pending W v) (v_world W v)) with v1. rewrite RU. reflexivity. }
        unfold Vm_Model.run_upcall in RU.
        destruct (upcall idx first (c_pc c1) img (v_ctx W v1) (v_heap W v1) (v_world W v1)) as [ur|]; [|discriminate].
        destruct (u_failure W ur) as [[p msg]|].
        -- destruct (nth_error (i_meta img) (c_pc c1)) as [mt|]; [|discriminate].
           unfold handle_exception in RU. cbn [v_ctx v1 set_regs c_handler next_pc set_pc] in RU.
           destruct (c_handler c1) as [|[|] a|] eqn:HD; try discriminate.
           ++ exfalso. exact (K1 a HD).
           ++ injection RU as <-. eapply CONT; [exact T| |].
              ** cbn [v_ctx]. apply forward_rank; try reflexivity; cbn [set_pc c_pc].
                 --- eapply next_statement_gt; [apply resume_point_next|assumption].
                 --- assumption.
                 --- apply at_start_false. assumption.
              ** cbn [v_ctx]. intros a. cbn. congruence.
        -- injection RU as <-. eapply CONT; [exact T| |].
           ++ cbn [v_ctx v1]. apply forward_rank; try reflexivity.
              ** cbn. lia.
              ** assumption.
              ** apply at_start_false. assumption.
           ++ cbn [v_ctx v1]. intros a. cbn. apply K1.
      * exists (VPanic W). apply vm_runs_stop. exists n. unfold Vm_Model.vm_turn. rewrite P, X. rewrite <- P.
        change (mkVm W (next_pc c1) h1 (v_last_error W v) (v_pending W v) (v_world W v)) with v1. rewrite RU. reflexivity.
    + eexists. apply vm_runs_stop. exists n. unfold Vm_Model.vm_turn. rewrite P, X. reflexivity.
    + eexists. apply vm_runs_stop. exists n. unfold Vm_Model.vm_turn. rewrite P, X. reflexivity.
  - exists (VPanic W). apply vm_runs_stop. exists n. unfold Vm_Model.vm_turn. rewrite P, X. reflexivity.
Qed.

End Vm.
End Proofs.
