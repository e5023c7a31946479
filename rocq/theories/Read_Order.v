(** The data of an image are the items of its [DATA], in order. *)
From Verif Require Import Base Bytecode_Model Mem_Model Vm_Model Ids_Model Ast_Model Syms_Model Codegen_Model
  Exprs_Model Exprs_Proofs Top_Model Top_Proofs Range_Proofs Incr_Spec Read_Spec.

Definition data_is := Forall2 item_is.
(** [body] adds the items [l]. *)
Definition adds (l : list (option expr)) (body : block) : Prop := forall x (Q : _ -> Prop),
  (forall x' new, t_data (fst x') = t_data (fst x) ++ new -> data_is l new -> Q x') -> wp (body x) Q.
Definition silent (body : block) : Prop := forall x (Q : _ -> Prop),
  (forall x', t_data (fst x') = t_data (fst x) -> Q x') -> wp (body x) Q.
Lemma silent_adds body : silent body -> adds [] body.
Proof. intros B x Q H. apply B. intros x' E. apply (H x' []); [rewrite app_nil_r; exact E|constructor]. Qed.
Lemma wp_any {A} (r : cres A) (Q : A -> Prop) : (forall a, Q a) -> wp r Q.
Proof. intros H. destruct r; cbn; auto. Qed.
Lemma adds_eq l body body' : (forall x, body' x = body x) -> adds l body -> adds l body'.
Proof. intros E B x Q H. rewrite E. apply B, H. Qed.

Ltac ws1 := match goal with
  | |- wp (COk _) _ => cbn [wp]
  | |- wp (CErr _) _ => exact Logic.I
  | |- wp CPanic _ => exact Logic.I
  | |- wp (bind _ _) _ => apply wp_bind
  end.
Ltac ws := cbn beta iota zeta; repeat (ws1; cbn beta iota zeta).

Lemma guard_silent e x (Q : _ -> Prop) : (forall r x', t_data (fst x') = t_data (fst x) -> Q (r, x')) -> wp (guard_expr e x) Q.
Proof.
  intros H. unfold guard_expr. cbn zeta. ws. apply wp_any. intros sc. ws. apply wp_any. intros [[r sc'] st]. ws. apply wp_any. intros st'.
  ws. apply H. reflexivity.
Qed.
Lemma assignment_silent v p e : silent (s_assignment v p e).
Proof. intros x Q H. unfold s_assignment. ws. apply wp_any. intros [g l]. ws. apply H. reflexivity. Qed.
Lemma patch_silent l t : silent (patch_jumps l t).
Proof.
  induction l as [|[a p] l IH]; intros x Q H; cbn [patch_jumps]; [cbn [wp]; auto|]. ws. apply wp_any. intros n.
  apply IH. exact H.
Qed.
Lemma for_iterator_silent i p d : silent (for_iterator i p d).
Proof.
  intros x Q H. unfold for_iterator. destruct (_ && _); [|apply H; reflexivity].
  destruct (get_local_or_global _ _) as [?|[]]; try exact Logic.I; try (apply H; reflexivity).
  destruct (get_callable _ _); [exact Logic.I|]. destruct (put_local _ _ _) as [[l [r|e]]|]; try exact Logic.I. apply H. reflexivity.
Qed.

Ltac hs := first [ assumption | congruence | reflexivity ].
Ltac go := repeat first [ progress ws
  | match goal with
    | |- wp (target_at _ _) _ => apply wp_any; intros
    | |- wp (guard_expr _ _) _ => apply guard_silent; intros
    | |- wp (patch_jumps _ _ _) _ => apply patch_silent; intros
    | |- wp (s_assignment _ _ _ _) _ => apply assignment_silent; intros
    | |- wp (for_iterator _ _ _ _) _ => apply for_iterator_silent; intros
    | B : adds _ ?body |- wp (?body _) _ => apply B; intros
    | |- wp (match ?e with _ => _ end) _ => destruct e eqn:?
    end; cbn beta iota zeta ].
Ltac fin H := eapply H; [|eassumption]; unfold s_emit, s_patch, set_gen, set_do, set_for in *; cbn [fst snd t_data] in *; congruence.

Lemma while_adds l e body : adds l body -> adds l (compile_while e body).
Proof. intros B x Q H. unfold compile_while. cbn zeta. go. fin H. Qed.
Lemma do_adds l g body : adds l body -> adds l (compile_do g body).
Proof.
  intros B x Q H. unfold compile_do. cbn zeta. pose proof (while_adds l) as W. destruct g; go; try fin H.
  apply W; [exact B|]. intros x1 new E D. go. fin H.
Qed.
Lemma for_adds l i p d s e n body : adds l body -> adds l (compile_for i p d s e n body).
Proof. intros B x Q H. unfold compile_for. cbn zeta. go. fin H. Qed.
Lemma branches_adds bs : forall (ls : list (list (option expr))) ends x (Q : _ -> Prop), Forall2 (fun l b => adds l (snd b)) ls bs ->
  (forall ends' x' new, t_data (fst x') = t_data (fst x) ++ new -> data_is (concat ls) new -> Q (ends', x')) ->
  wp (compile_branches bs ends x) Q.
Proof.
  induction bs as [|[e body] bs IH]; intros ls ends x Q F H; inversion F as [|l ? ls' ? B F']; subst; cbn [compile_branches concat]; cbn zeta.
  - cbn [wp]. apply (H ends x []); [symmetry; apply app_nil_r|constructor].
  - cbn [snd] in B. ws. apply guard_silent. intros r x1 E1. ws. ws. apply B. intros x2 new E2 D2. cbn [s_emit fst set_gen t_data] in E2.
    assert (K : forall ends0 x3, t_data (fst x3) = t_data (fst x2) -> wp (compile_branches bs ends0 x3) Q).
    { intros ends0 x3 E3. eapply IH; [exact F'|]. intros ends' x4 new' E4 D4. eapply H; [|apply Forall2_app; [exact D2|exact D4]].
      rewrite E4, E3, E2, E1. symmetry. apply app_assoc. }
    destruct bs; go; apply K; reflexivity.
Qed.
Lemma if_adds ls bs : Forall2 (fun l b => adds l (snd b)) ls bs -> adds (concat ls) (compile_if bs).
Proof.
  intros F x Q H. unfold compile_if. ws. eapply branches_adds; [exact F|]. intros ends x1 new E D. ws. apply patch_silent. intros x2 E2.
  eapply H; [rewrite E2; exact E|exact D].
Qed.
Lemma dispatch_adds l tr ty ep cs : forall (ls : list (list (option expr))) next pend (ps : list (list (option expr))) st (Q : _ -> Prop),
  Forall2 (fun l c => adds l (snd c)) ls cs -> Forall2 (fun l p => adds l (fst (fst p))) ps pend ->
  (forall pend' n st', Forall2 (fun l p => adds l (fst (fst p))) (ps ++ ls) pend' -> Q (pend', n, st')) ->
  wp (select_dispatch l tr ty ep cs next pend st) Q.
Proof.
  induction cs as [|[gs body] cs IH]; intros ls next pend ps st Q F P H; inversion F as [|l0 ? ls' ? B F']; subst; cbn [select_dispatch]; cbn zeta.
  - cbn [wp]. apply H. rewrite app_nil_r. exact P.
  - ws. apply wp_any. intros st1.
    assert (P' : forall j hn, Forall2 (fun l p => adds l (fst (fst p))) (ps ++ [l0]) (pend ++ [(body, j : list (nat * linecol), hn : bool)])).
    { intros j hn. apply Forall2_app; [exact P|]. repeat constructor. exact B. }
    destruct gs.
    + eapply IH; [exact F'|apply P'|]. rewrite <- app_assoc. exact H.
    + ws. apply wp_any. intros [j st2]. ws. eapply IH; [exact F'|apply P'|]. rewrite <- app_assoc. exact H.
Qed.
Lemma bodies_adds ep pend : forall (ls : list (list (option expr))) ends x (Q : _ -> Prop), Forall2 (fun l p => adds l (fst (fst p))) ls pend ->
  (forall e x' new, t_data (fst x') = t_data (fst x) ++ new -> data_is (concat ls) new -> Q (e, x')) ->
  wp (select_bodies ep pend ends x) Q.
Proof.
  induction pend as [|[[body jumps] hn] pend IH]; intros ls ends x Q F H; inversion F as [|l ? ls' ? B F']; subst; cbn [select_bodies concat].
  - cbn [wp]. apply (H ends x []); [symmetry; apply app_nil_r|constructor].
  - cbn [fst] in B. ws. apply patch_silent. intros x1 E1. ws. apply B. intros x2 new E2 D2.
    destruct hn; (eapply IH; [exact F'|]; intros e0 x3 new' E3 D3; eapply H; [|apply Forall2_app; [exact D2|exact D3]]).
    + cbn [s_emit fst set_gen t_data] in E3. rewrite E3, E2, E1. symmetry. apply app_assoc.
    + rewrite E3, E2, E1. symmetry. apply app_assoc.
Qed.
Lemma fold_patch_data l t : forall x, t_data (fst (fold_left (fun x a => s_patch a (IJump t) x) l x)) = t_data (fst x).
Proof. induction l as [|a l IH]; intros x; cbn [fold_left]; [reflexivity|]. rewrite IH. reflexivity. Qed.
Lemma select_adds e ls cs ep : Forall2 (fun l b => adds l (snd b)) ls cs -> adds (concat ls) (compile_select e cs ep).
Proof.
  intros F x Q H. unfold compile_select. ws. apply wp_any. intros [tr l]. ws. ws. apply wp_any. intros [st1 ty]. ws. ws.
  eapply dispatch_adds; [exact F|constructor|]. intros pend n st2 P. cbn [app] in P. ws. ws.
  apply wp_mono with (P := fun y => t_data (fst y) = t_data (fst x)).
  { destruct n as [[a p]|]; [|reflexivity]. ws. apply wp_any. intros t. reflexivity. }
  intros x2 E2. ws. eapply bodies_adds; [exact P|]. intros ends x3 new E3 D3. ws. ws. apply wp_any. intros t. ws.
  eapply H; [|exact D3]. rewrite fold_patch_data. cbn [s_patch fst set_gen t_data]. rewrite E3, E2. reflexivity.
Qed.
Lemma callable_adds l n p ps body ep : adds l body -> adds l (compile_callable n p ps body ep).
Proof.
  intros B x Q H. unfold compile_callable. ws. apply wp_any. intros ls. destruct (existsb _ _); [exact Logic.I|]. ws.
  unfold compile_user_callable. cbn zeta. destruct (t_current _); [exact Logic.I|]. ws.
  apply wp_mono with (P := fun y => t_data (fst y) = t_data (fst x)).
  { unfold define_result. destruct (vr_type n) as [t0|]; [|reflexivity]. destruct (put_local _ _ _) as [[l1 [r|e]]|]; try exact Logic.I.
    ws. apply wp_any. intros [g v]. reflexivity. }
  intros x1 E1. ws. apply wp_any. intros l1. ws. apply B. intros x2 new E2 D2. cbn [fst] in E2. ws. apply patch_silent. intros x3 E3.
  cbn [s_emit fst set_gen t_data] in E3. ws. apply wp_any. intros t. ws. eapply H; [|exact D2].
  cbn [fst snd set_gen set_current set_exits t_data]. rewrite E3, E2, E1. reflexivity.
Qed.
Lemma block_adds l : Forall (fun s => adds (items s) (compile_stmt s)) l -> adds (all_items l) (compile_stmts l).
Proof.
  induction 1 as [|s l B _ IH]; intros x Q H; cbn [compile_stmts].
  - cbn [wp]. apply (H x []); [symmetry; apply app_nil_r|constructor].
  - ws. apply B. intros x1 new E D. apply IH. intros x2 new' E' D'. eapply H; [|apply Forall2_app; [exact D|exact D']].
    rewrite E', E. symmetry. apply app_assoc.
Qed.
Lemma data_values_spec l vs : data_values l = COk vs -> data_is l vs.
Proof.
  revert vs. induction l as [|[e|] l IH]; intros vs E; cbn [data_values] in E.
  - injection E as <-. constructor.
  - destruct (data_constant e) as [d|] eqn:C; [|discriminate E]. destruct (data_values l) as [r| |]; try discriminate E.
    injection E as <-. constructor; [|apply IH; reflexivity]. destruct e; try discriminate C; injection C as <-; constructor.
  - destruct (data_values l) as [r| |]; try discriminate E. injection E as <-. constructor; [constructor|apply IH; reflexivity].
Qed.
Lemma mark_data s a x : t_data (fst (mark_from s a x)) = t_data (fst x).
Proof. unfold mark_from. destruct (_ && _); reflexivity. Qed.
Lemma adds_marked l s body : adds l body -> adds l (fun x => let* x' := body x in COk (mark_from s (s_pc x) x')).
Proof. intros B x Q H. ws. apply B. intros x' new E D. ws. eapply H; [rewrite mark_data; exact E|exact D]. Qed.
Lemma stmt_adds s : adds (items s) (compile_stmt s).
Proof.
  induction s as [s Simple|n np ps body ep IH|g body IH|i ip d s0 e n body IH|bs IH|e cs ep IH|e body IH]
    using stmt_rect'; (eapply adds_eq; [intros x; apply compile_stmt_eq|]).
  2: apply (adds_marked _ (StCallable n np ps body ep)), callable_adds, (block_adds body); assumption.
  2: apply (adds_marked _ (StDo g body)), do_adds, (block_adds body); assumption.
  2: apply (adds_marked _ (StFor i ip d s0 e n body)), for_adds, (block_adds body); assumption.
  2: { apply (adds_marked _ (StIf bs)). cbn [items]. rewrite flat_map_concat_map. apply if_adds. clear -IH.
       induction IH as [|[e b] bs B _ IH]; cbn [map]; constructor; auto. apply (block_adds b), B. }
  2: { apply (adds_marked _ (StSelect e cs ep)). cbn [items]. rewrite flat_map_concat_map. apply select_adds. clear -IH.
       induction IH as [|[g b] bs B _ IH]; cbn [map]; constructor; auto. apply (block_adds b), B. }
  2: apply (adds_marked _ (StWhile e body)), while_adds, (block_adds body); assumption.
  destruct s; try contradiction Simple; cbn [items].
  - apply (adds_marked _ (StArrayAssignment v vpos subs e)), silent_adds. intros x Q H. unfold compile_array_assignment. cbn zeta.
    ws. apply wp_any. intros [[arr t] nd]. ws. destruct (negb _); [exact Logic.I|]. ws. apply wp_any. intros sc.
    ws. apply wp_any. intros [[r sc'] st]. ws. ws. apply wp_any. intros st'. ws. apply wp_any. intros [[[f|] sc2] st2]; [|exact Logic.I]. ws. apply H. reflexivity.
  - apply (adds_marked _ (StAssignment v vpos e)), silent_adds, assignment_silent.
  - apply (adds_marked _ (StCall v vpos args)), silent_adds. intros x Q H. unfold compile_call_stmt. cbn zeta.
    destruct (get_callable _ _); [|exact Logic.I]. destruct (md_return _); [exact Logic.I|]. ws. apply wp_any. intros [g l]. ws.
    ws. apply wp_any. intros [[st f] lcs]. ws. ws. apply wp_any. intros g2. ws. apply H. reflexivity.
  - apply (adds_marked _ (StData values)). intros x Q H. unfold compile_data. ws. destruct (data_values values) as [vs| |] eqn:E; try exact Logic.I.
    cbn [wp]. eapply H; [|apply data_values_spec, E]. reflexivity.
  - apply (adds_marked _ (StDeclare name name_pos params)), silent_adds. intros x Q H. unfold compile_declare.
    destruct (t_current _); [exact Logic.I|]. ws. apply wp_any. intros l. ws. apply H. reflexivity.
  - apply (adds_marked _ (StDim name name_pos shared t)), silent_adds. intros x Q H. unfold compile_dim. ws. apply wp_any. intros [r l]. ws. apply H. reflexivity.
  - apply (adds_marked _ (StDimArray name name_pos shared dims t)), silent_adds. intros x Q H. unfold compile_dim_array. cbn zeta.
    ws. apply wp_any. intros [r l]. ws. ws. apply wp_any. intros sc. ws. apply wp_any. intros [[[f|] sc2] st2]; [|exact Logic.I]. ws.
    destruct (packed_new _ _); [|exact Logic.I]. ws. apply H. reflexivity.
  - apply (adds_marked _ (StEnd code pos)), silent_adds. intros x Q H. unfold compile_end. cbn zeta. ws. apply wp_any. intros _. ws. apply wp_any. intros sc.
    ws. apply wp_any. intros [[r sc'] st]. ws. ws. apply wp_any. intros st'. ws. apply H. reflexivity.
  - apply (adds_marked _ (StExitDo pos)), silent_adds. intros x Q H. unfold compile_exit_do. destruct (t_do _); [exact Logic.I|]. cbn [wp]. apply H. reflexivity.
  - apply (adds_marked _ (StExitFor pos)), silent_adds. intros x Q H. unfold compile_exit_for. destruct (t_for _); [exact Logic.I|]. cbn [wp]. apply H. reflexivity.
  - apply (adds_marked _ (StExitFunction pos)), silent_adds. intros x Q H. unfold compile_exit_callable.
    match goal with |- wp (if ?b then _ else _) _ => destruct b end; [|exact Logic.I]. cbn [wp]. apply H. reflexivity.
  - apply (adds_marked _ (StExitSub pos)), silent_adds. intros x Q H. unfold compile_exit_callable.
    match goal with |- wp (if ?b then _ else _) _ => destruct b end; [|exact Logic.I]. cbn [wp]. apply H. reflexivity.
  - apply (adds_marked _ (StGosub target pos)), silent_adds. intros x Q H. cbn [wp]. apply H. reflexivity.
  - apply (adds_marked _ (StGoto target pos)), silent_adds. intros x Q H. cbn [wp]. apply H. reflexivity.
  - apply (adds_marked _ (StLabel name pos)), silent_adds. intros x Q H. unfold compile_label.
    destruct (define_label _ _ _) as [g []] eqn:D; [|exact Logic.I]. cbn [wp]. apply H. reflexivity.
  - apply (adds_marked _ (StOnError o)), silent_adds. intros x Q H. cbn [wp]. apply H. destruct o; reflexivity.
  - apply (adds_marked _ (StReturn pos)), silent_adds. intros x Q H. cbn [wp]. apply H. reflexivity.
Qed.

Lemma input_adds l : forall x x', compile_input l x = (x', COk tt) ->
  exists new, t_data (fst x') = t_data (fst x) ++ new /\ data_is (all_items l) new.
Proof.
  induction l as [|s l IH]; intros x x' E; cbn [compile_input] in E.
  - injection E as <-. exists []. split; [symmetry; apply app_nil_r|constructor].
  - destruct (compile_stmt s x) as [x1| |] eqn:C; try discriminate E. destruct (IH _ _ E) as (new' & E' & D').
    assert (K : exists new, t_data (fst x1) = t_data (fst x) ++ new /\ data_is (items s) new).
    { refine (wp_ok _ (fun y => exists new, t_data (fst y) = t_data (fst x) ++ new /\ data_is (items s) new) _ C _).
      apply stmt_adds. intros y new EY D. exists new. auto. }
    destruct K as (new & EY & D). exists (new ++ new').
    split; [rewrite E', EY; symmetry; apply app_assoc|]. apply Forall2_app; assumption.
Qed.

(** In a session, the compiler and the image have the same data. *)
Lemma more_data k img src o k' img' : t_data (k_ctx k) = ci_data img -> compile_more k img src = (o, k', img') ->
  t_data (k_ctx k') = ci_data img' /\
  exists new, ci_data img' = ci_data img ++ new /\
    match o with Compiled => data_is (all_items (fst src)) new | _ => new = [] end.
Proof.
  intros E H. unfold compile_more in H. cbn zeta in H.
  destruct (compile_source src img (k_ctx k) (k_syms k)) as [[c l] r] eqn:CS. unfold compile_source in CS.
  destruct (compile_input (fst src) _) as [[c1 l1] r1] eqn:CI.
  destruct r1 as [[]|e|].
  2:{ injection CS as _ _ <-. injection H as <- <- <-. split; [exact E|]. exists []. split; [symmetry; apply app_nil_r|reflexivity]. }
  2:{ injection CS as _ _ <-. injection H as <- <- <-. split; [exact E|]. exists []. split; [symmetry; apply app_nil_r|reflexivity]. }
  destruct (snd src) as [e|].
  { injection CS as _ _ <-. injection H as <- <- <-. split; [exact E|]. exists []. split; [symmetry; apply app_nil_r|reflexivity]. }
  destruct (input_adds _ _ _ CI) as (new & EN & D). cbn [fst set_gen t_data] in EN.
  unfold build_image_delta in CS.
  destruct (apply_fixups _) as [g| |] in CS.
  2:{ injection CS as _ _ <-. injection H as <- <- <-. split; [exact E|]. exists []. split; [symmetry; apply app_nil_r|reflexivity]. }
  2:{ injection CS as _ _ <-. injection H as <- <- <-. split; [exact E|]. exists []. split; [symmetry; apply app_nil_r|reflexivity]. }
  cbn [bind] in CS. injection CS as <- _ <-. injection H as <- <- <-. cbn [k_ctx set_gen t_data image_append ci_data].
  assert (K : ci_data img ++ skipn (length (ci_data img)) (t_data c1) = t_data c1).
  { rewrite EN, E. rewrite skipn_app, skipn_all, Nat.sub_diag. reflexivity. }
  rewrite K. split; [reflexivity|]. exists new. split; [rewrite EN, E; reflexivity|exact D].
Qed.
Lemma start_data up defs k : compiler_new up defs = COk k -> t_data (k_ctx k) = [].
Proof.
  unfold compiler_new. destruct (prepare_globals _ _ _) as [[g gs]| |]; try discriminate. cbn [bind]. intros E. injection E as <-. reflexivity.
Qed.
Lemma session_data up defs srcs k img : session up defs srcs k img -> t_data (k_ctx k) = ci_data img.
Proof.
  induction 1 as [k E|srcs src k img o k' img' S IH C]; [apply (start_data _ _ _ E)|]. apply (more_data _ _ _ _ _ _ IH C).
Qed.
