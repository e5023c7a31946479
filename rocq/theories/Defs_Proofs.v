(** Functions and subroutines keep the address that they got when they were defined. *)
From Verif Require Import Base Bytecode_Model Mem_Model Vm_Model Ids_Model Ast_Model Syms_Model Codegen_Model
  Exprs_Model Exprs_Proofs Top_Model Top_Proofs Range_Proofs Steady_Proofs.

(** What the compiler knows of definitions. *)
Definition view : Type := list (ustr * (nat * nat)) * list ustr * option ckind.
Definition vw (x : sst) : view := (g_callables (s_gen x), t_defined (fst x), t_current (fst x)).
Record vle (a b : view) : Prop := mkVle {
  vl_known : forall k p, assoc (fst (fst b)) k = Some p -> In k (snd (fst b));
  vl_kept : forall k p, assoc (fst (fst a)) k = Some p -> assoc (fst (fst b)) k = Some p;
  vl_def : forall k, In k (snd (fst a)) -> In k (snd (fst b));
  vl_cur : snd b = snd a;
  vl_in : snd a <> None -> fst b = fst a
}.
Definition known (a : view) : Prop := forall k p, assoc (fst (fst a)) k = Some p -> In k (snd (fst a)).
Lemma vle_refl a : known a -> vle a a.
Proof. intros K. constructor; auto. Qed.
Lemma vle_trans a b c : vle a b -> vle b c -> vle a c.
Proof.
  intros [A1 A2 A3 A4 A5] [B1 B2 B3 B4 B5]. constructor; auto; [congruence|]. intros N0. rewrite B5, A5; auto. congruence.
Qed.
Lemma vle_known a b : vle a b -> known b.
Proof. intros [K _ _ _ _]. exact K. Qed.

Definition bc (body : block) : Prop := forall v0 x (Q : _ -> Prop), vle v0 (vw x) ->
  (forall x', vle v0 (vw x') -> Q x') -> wp (body x) Q.

Definition same_callables (l : list (ustr * (nat * nat))) (g : codegen) : Prop := g_callables g = l.
Lemma callables_steady l : steady (same_callables l).
Proof.
  split.
  - intros i pos g Q H. exact H.
  - intros g m H. exact H.
  - intros g m H. exact H.
  - intros r k pos g H. exact H.
  - intros. assumption.
  - intros a l0 g H. exact H.
Qed.
Lemma vw_same x x' : g_callables (s_gen x') = g_callables (s_gen x) -> t_defined (fst x') = t_defined (fst x) ->
  t_current (fst x') = t_current (fst x) -> vw x' = vw x.
Proof. intros A B C. unfold vw. rewrite A, B, C. reflexivity. Qed.
Lemma bc_steady body : (forall P, steady P -> bsteady P body) -> bc body.
Proof.
  intros B v0 x Q H K. apply (B _ (callables_steady (g_callables (s_gen x)))); [reflexivity|].
  intros x' (_ & _ & _ & D & C) H'. apply K. rewrite (vw_same x x'); assumption.
Qed.
Lemma guard_bc e v0 x (Q : _ -> Prop) : vle v0 (vw x) -> (forall r x', vle v0 (vw x') -> Q (r, x')) -> wp (guard_expr e x) Q.
Proof.
  intros H K. apply (guard_st _ (callables_steady (g_callables (s_gen x)))); [reflexivity|].
  intros r x' (_ & _ & _ & D & C) H'. apply K. rewrite (vw_same x x'); assumption.
Qed.

Ltac hs := match goal with H : vle _ _ |- vle _ _ => exact H end.
Lemma target_c a pos (Q : _ -> Prop) : (forall t, Q t) -> wp (target_at a pos) Q.
Proof. intros H. unfold target_at, make_target. destruct (_ <? _)%N; cbn [wp]; auto. Qed.
Lemma patch_jumps_bc l t : bc (patch_jumps l t).
Proof.
  induction l as [|[a p] l IH]; intros v0 x Q R H; cbn [patch_jumps]; [cbn [wp]; auto|].
  apply wp_bind, target_c. intros n. eapply IH; [|exact H]. hs.
Qed.
Ltac hstep :=
  first [ match goal with
          | |- wp (COk _) _ => cbn [wp]
          | |- wp (CErr _) _ => exact I
          | |- wp CPanic _ => exact I
          | |- wp (bind _ _) _ => apply wp_bind
          | |- wp (target_at _ _) _ => apply target_c; intros
          | |- wp (guard_expr _ _) _ => eapply guard_bc; [hs|intros]
          | |- wp (patch_jumps _ _ _) _ => eapply patch_jumps_bc; [hs|intros]
          | |- wp (s_assignment _ _ _ _) _ => eapply (bc_steady _ (fun P K => s_assignment_st P K _ _ _)); [hs|intros]
          | B : bc ?body |- wp (?body _) _ => eapply B; [hs|intros]
          | |- wp (match ?e with _ => _ end) _ => destruct e eqn:?
          end ]; cbn beta iota zeta.

Lemma while_bc e body : bc body -> bc (compile_while e body).
Proof. intros B v0 x Q R H. unfold compile_while. cbn zeta. repeat hstep. apply H. hs. Qed.
Lemma do_bc g body : bc body -> bc (compile_do g body).
Proof.
  intros B v0 x Q R H. unfold compile_do. cbn zeta. pose proof while_bc as W. destruct g; repeat hstep; try (apply H; hs).
  eapply W; [exact B|hs|]. intros x1 R1. repeat hstep. apply H; hs.
Qed.
Lemma for_bc i p d s e n body : bc body -> bc (compile_for i p d s e n body).
Proof.
  intros B v0 x Q R H. unfold compile_for. cbn zeta. apply wp_bind.
  apply wp_mono with (P := fun y => vle v0 (vw y)).
  { unfold for_iterator. repeat hstep; exact R. }
  intros x1 R1. repeat hstep. apply H; hs.
Qed.
Lemma branches_bc bs : forall v0 ends x (Q : _ -> Prop), Forall (fun b => bc (snd b)) bs -> vle v0 (vw x) ->
  (forall ends' x', vle v0 (vw x') -> Q (ends', x')) -> wp (compile_branches bs ends x) Q.
Proof.
  induction bs as [|[e body] bs IH]; intros v0 ends x Q F R H; cbn [compile_branches]; cbn zeta.
  - cbn [wp]. auto.
  - inversion F as [|? ? B F']; subst. cbn [snd] in B. apply wp_bind. eapply guard_bc; [exact R|]. intros r x1 R1.
    cbn beta iota. apply wp_bind. eapply B; [hs|]. intros x2 R2. destruct bs; repeat hstep; (eapply IH; [exact F'|hs|exact H]).
Qed.
Lemma if_bc bs : Forall (fun b => bc (snd b)) bs -> bc (compile_if bs).
Proof.
  intros F v0 x Q R H. unfold compile_if. apply wp_bind. eapply branches_bc; [exact F|exact R|]. intros ends x1 R1.
  cbn beta iota. eapply patch_jumps_bc; [exact R1|exact H].
Qed.
Lemma case_guards_bc l tr tt_ gs : forall c0 jumps st (Q : _ -> Prop), same_callables c0 (fst st) ->
  (forall j st', same_callables c0 (fst st') -> Q (j, st')) -> wp (case_guards l tr tt_ gs jumps st) Q.
Proof.
  induction gs as [|g gs IH]; intros c0 jumps st Q R H; cbn [case_guards]; cbn zeta; [cbn [wp]; auto|].
  apply wp_bind, (case_guard_st _ (callables_steady c0)); [exact R|]. intros c p st1 R1. cbn beta iota. apply wp_bind, target_c. intros n.
  eapply IH; [|exact H]. exact R1.
Qed.
Lemma dispatch_bc l tr tt_ ep cs : forall c0 next pend st (Q : _ -> Prop), same_callables c0 (fst st) ->
  Forall (fun c => bc (snd c)) cs -> Forall (fun p => bc (fst (fst p))) pend ->
  (forall pend' n st', Forall (fun p => bc (fst (fst p))) pend' -> same_callables c0 (fst st') -> Q (pend', n, st')) ->
  wp (select_dispatch l tr tt_ ep cs next pend st) Q.
Proof.
  induction cs as [|[gs body] cs IH]; intros c0 next pend st Q R F P H; cbn [select_dispatch]; cbn zeta.
  - cbn [wp]. auto.
  - inversion F as [|? ? B F']; subst. apply wp_bind. apply wp_mono with (P := fun y => same_callables c0 (fst y)).
    { unfold patch_next, e_patch. repeat hstep; exact R. }
    intros st1 R1. destruct gs.
    + eapply IH; [exact R1|exact F'| |exact H]. apply Forall_app. split; [exact P|repeat constructor; exact B].
    + apply wp_bind. eapply case_guards_bc; [exact R1|]. intros j st2 R2. cbn beta iota.
      eapply IH; [exact R2|exact F'| |exact H]. apply Forall_app. split; [exact P|repeat constructor; exact B].
Qed.
Lemma bodies_bc ep pend : forall v0 ends x (Q : _ -> Prop), Forall (fun p => bc (fst (fst p))) pend ->
  vle v0 (vw x) -> (forall e x', vle v0 (vw x') -> Q (e, x')) -> wp (select_bodies ep pend ends x) Q.
Proof.
  induction pend as [|[[body jumps] hn] pend IH]; intros v0 ends x Q F R H; cbn [select_bodies].
  - cbn [wp]. auto.
  - inversion F as [|? ? B F']; subst. cbn [fst] in B. apply wp_bind. eapply patch_jumps_bc; [exact R|]. intros x1 R1.
    apply wp_bind. eapply B; [exact R1|]. intros x2 R2. destruct hn; (eapply IH; [exact F'|hs|exact H]).
Qed.
Lemma fold_patch_vw l t : forall x, vw (fold_left (fun x a => s_patch a (IJump t) x) l x) = vw x.
Proof. induction l as [|a l IH]; intros x; cbn [fold_left]; [reflexivity|]. rewrite IH. reflexivity. Qed.
Lemma select_bc e cs ep : Forall (fun b => bc (snd b)) cs -> bc (compile_select e cs ep).
Proof.
  intros F v0 x Q R H. unfold compile_select. apply wp_bind. unfold of_syms.
  destruct (reserve_temp (snd x)) as [[tr l]|] eqn:E; [|exact I]. cbn [wp]. apply wp_bind.
  apply (compile_expr_st _ (callables_steady (g_callables (s_gen x)))); [reflexivity|]. intros st1 t1 R1. cbn beta iota. apply wp_bind.
  eapply dispatch_bc; [exact R1|exact F|constructor|]. intros pend n st2 P R2. cbn beta iota zeta.
  assert (R3 : vle v0 (vw (set_gen (fst st2) (fst x), release_temp (thaw l (snd st2))))).
  { rewrite (vw_same x); [exact R|exact R2|reflexivity|reflexivity]. }
  apply wp_bind. apply wp_mono with (P := fun y => vle v0 (vw y)).
  { repeat hstep; hs. }
  intros x2 R4. apply wp_bind. eapply bodies_bc; [exact P|exact R4|]. intros ends x3 R5. repeat hstep. apply H. rewrite fold_patch_vw. hs.
Qed.

Lemma existsb_in k l : existsb (ustr_eqb k) l = false -> ~ In k l.
Proof.
  intros E I1. assert (T : existsb (ustr_eqb k) l = true) by (apply existsb_exists; exists k; auto using ustr_eqb_refl). congruence.
Qed.

(** The definition itself. *)
Lemma callable_adds n p ps body ep : bc body -> forall x (Q : _ -> Prop), known (vw x) ->
  (forall x', ~ In (symkey (vr_name n)) (t_defined (fst x)) -> t_current (fst x) = None ->
     (exists e, vw x' = (assoc_insert (g_callables (s_gen x)) (symkey (vr_name n)) (S (s_pc x), e),
                         symkey (vr_name n) :: t_defined (fst x), None)) -> Q x') ->
  wp (compile_callable n p ps body ep x) Q.
Proof.
  intros B x Q KN H. unfold compile_callable. apply wp_bind.
  destruct (declare_callable _ _ _ _) as [l| |]; [|exact I|exact I]. cbn [wp].
  destruct (existsb _ _) eqn:EX; [exact I|]. apply existsb_in in EX. apply wp_bind. unfold compile_user_callable. cbn zeta.
  cbn [fst snd] in *. destruct (t_current _) eqn:CU; [exact I|]. cbn [fst] in CU, EX.
  set (kind := match vr_type n with Some _ => KFunction | None => KSub end).
  set (v1 := (g_callables (s_gen x), t_defined (fst x), Some kind) : view).
  assert (K1 : vle v1 v1) by (apply vle_refl; exact KN).
  apply wp_bind. eapply (bc_steady _ (fun P K => result_st P K n (symkey (vr_name n)) p)) with (v0 := v1); [exact K1|]. intros x1 R1.
  apply wp_bind. destruct (define_params _ _ _) as [l1| |]; [|exact I|exact I]. cbn [wp].
  apply wp_bind. eapply B with (v0 := v1); [exact R1|]. intros x2 R2.
  apply wp_bind. eapply patch_jumps_bc with (v0 := v1); [exact R2|]. intros x3 R3.
  apply wp_bind. apply target_c. intros t. cbn [wp]. apply H; [exact EX|reflexivity|].
  pose proof (vl_in _ _ R3 ltac:(discriminate)) as V3. unfold v1, vw in V3. cbn [fst] in V3. injection V3 as V4 V5.
  eexists. unfold vw, s_gen. cbn [fst snd set_gen set_current set_exits t_gen t_defined t_current define_user_callable patch with_code g_callables].
  unfold s_gen in V4. rewrite V4, V5. rewrite s_emit_pc. reflexivity.
Qed.
Lemma callable_bc n p ps body ep : bc body -> bc (compile_callable n p ps body ep).
Proof.
  intros B v0 x Q R H. apply callable_adds; [exact B|eapply vle_known, R|]. intros x' NI CU [e V]. apply H. rewrite V.
  destruct R as [R1 R2 R3 R4 R5]. unfold vw in R1, R2, R3, R4, R5. cbn [fst snd] in *. rewrite CU in R4.
  constructor; cbn [fst snd].
  - intros k q. rewrite assoc_insert_get. destruct (ustr_eqb _ _) eqn:E; [apply ustr_eqb_eq in E; left; exact E|]. intros A. right. eapply R1, A.
  - intros k q A. rewrite assoc_insert_get. apply R2 in A. destruct (ustr_eqb _ _) eqn:E; [|exact A].
    apply ustr_eqb_eq in E. subst k. destruct NI. eapply R1, A.
  - intros k K. right. auto.
  - exact R4.
  - intros N0. destruct N0. symmetry. exact R4.
Qed.

Lemma stmts_bc l : Forall (fun s => bc (compile_stmt s)) l -> bc (compile_stmts l).
Proof.
  induction 1 as [|s l B _ IH]; intros v0 x Q O H; cbn [compile_stmts].
  - cbn [wp]. auto.
  - apply wp_bind. eapply B; [exact O|]. intros x1 O1. eapply IH; eassumption.
Qed.
Lemma mark_vw s a x : vw (mark_from s a x) = vw x.
Proof. unfold mark_from. destruct (_ && _); reflexivity. Qed.
Lemma bc_marked s body : bc body -> bc (fun x => let* x' := body x in COk (mark_from s (s_pc x) x')).
Proof.
  intros B v0 x Q O H. apply wp_bind. eapply B; [exact O|]. intros x' O'. cbn [wp]. apply H. rewrite mark_vw. exact O'.
Qed.
Lemma bc_eq body body' : (forall x, body' x = body x) -> bc body -> bc body'.
Proof. intros E B v0 x Q R H. rewrite E. eapply B; eassumption. Qed.

Lemma stmt_bc s : bc (compile_stmt s).
Proof.
  induction s as [s Simple|n np ps body ep IH|g body IH|i ip d s0 e n body IH|bs IH|e cs ep IH|e body IH]
    using stmt_rect'; (eapply bc_eq; [intros x; apply compile_stmt_eq|]).
  2: apply (bc_marked (StCallable n np ps body ep)), callable_bc, stmts_bc; assumption.
  2: apply (bc_marked (StDo g body)), do_bc, stmts_bc; assumption.
  2: apply (bc_marked (StFor i ip d s0 e n body)), for_bc, stmts_bc; assumption.
  2: { apply (bc_marked (StIf bs)), if_bc. clear -IH. induction IH; constructor; auto. apply stmts_bc; assumption. }
  2: { apply (bc_marked (StSelect e cs ep)), select_bc. clear -IH. induction IH; constructor; auto. apply stmts_bc; assumption. }
  2: apply (bc_marked (StWhile e body)), while_bc, stmts_bc; assumption.
  destruct s; try contradiction Simple.
  - apply (bc_marked (StArrayAssignment v vpos subs e)), bc_steady. intros P K. apply array_assignment_st, K.
  - apply (bc_marked (StAssignment v vpos e)), bc_steady. intros P K. apply s_assignment_st, K.
  - apply (bc_marked (StCall v vpos args)), bc_steady. intros P K. apply call_stmt_st, K.
  - apply (bc_marked (StData values)). intros v0 x Q R H. unfold compile_data. apply wp_bind.
    destruct (data_values _); [|exact I|exact I]. cbn [wp]. apply H. exact R.
  - apply (bc_marked (StDeclare name name_pos params)). intros v0 x Q R H. unfold compile_declare.
    destruct (t_current _); [exact I|]. apply wp_bind.
    destruct (declare_callable _ _ _ _); [|exact I|exact I]. cbn [wp]. apply H. exact R.
  - apply (bc_marked (StDim name name_pos shared t)), bc_steady. intros P K. apply dim_st, K.
  - apply (bc_marked (StDimArray name name_pos shared dims t)), bc_steady. intros P K. apply dim_array_st, K.
  - apply (bc_marked (StEnd code pos)), bc_steady. intros P K. apply end_st, K.
  - apply (bc_marked (StExitDo pos)). intros v0 x Q R H. unfold compile_exit_do.
    destruct (t_do _); [exact I|]. cbn [wp]. apply H. hs.
  - apply (bc_marked (StExitFor pos)). intros v0 x Q R H. unfold compile_exit_for.
    destruct (t_for _); [exact I|]. cbn [wp]. apply H. hs.
  - apply (bc_marked (StExitFunction pos)). intros v0 x Q R H. unfold compile_exit_callable.
    match goal with |- wp (if ?b then _ else _) _ => destruct b end; [|exact I]. cbn [wp]. apply H. hs.
  - apply (bc_marked (StExitSub pos)). intros v0 x Q R H. unfold compile_exit_callable.
    match goal with |- wp (if ?b then _ else _) _ => destruct b end; [|exact I]. cbn [wp]. apply H. hs.
  - apply (bc_marked (StGosub target pos)). intros v0 x Q R H. cbn [wp]. apply H. hs.
  - apply (bc_marked (StGoto target pos)). intros v0 x Q R H. cbn [wp]. apply H. hs.
  - apply (bc_marked (StLabel name pos)). intros v0 x Q R H. unfold compile_label.
    destruct (define_label _ _ _) as [g []] eqn:D; [|exact I]. cbn [wp]. unfold define_label in D. injection D as <- _.
    apply H. hs.
  - apply (bc_marked (StOnError o)). intros v0 x Q R H. cbn [wp]. apply H. destruct o; hs.
  - apply (bc_marked (StReturn pos)). intros v0 x Q R H. cbn [wp]. apply H. hs.
Qed.

Lemma block_bc l : bc (compile_stmts l).
Proof. apply stmts_bc, Forall_forall. intros s _. apply stmt_bc. Qed.

Lemma block_views l x x' : compile_stmts l x = COk x' -> known (vw x) -> vle (vw x) (vw x').
Proof.
  intros H K. refine (wp_ok _ (fun y => vle (vw x) (vw y)) _ H _). eapply block_bc; [apply vle_refl, K|auto].
Qed.
Lemma stmt_views s x x' : compile_stmt s x = COk x' -> known (vw x) -> vle (vw x) (vw x').
Proof.
  intros H K. refine (wp_ok _ (fun y => vle (vw x) (vw y)) _ H _). eapply stmt_bc; [apply vle_refl, K|auto].
Qed.
Lemma definition_view n p ps body ep x x' : compile_stmt (StCallable n p ps body ep) x = COk x' -> known (vw x) ->
  exists e, vw x' = (assoc_insert (g_callables (s_gen x)) (symkey (vr_name n)) (S (s_pc x), e),
                     symkey (vr_name n) :: t_defined (fst x), None).
Proof.
  intros H K. rewrite compile_stmt_eq in H.
  refine (wp_ok _ (fun y => exists e, vw y = _) _ H _). apply wp_bind, callable_adds; [apply block_bc|exact K|].
  intros y _ _ V. cbn [wp]. rewrite mark_vw. exact V.
Qed.
