(** Proofs about the compilation of statements: what is kept and what is only added. *)
From Verif Require Import Base Bytecode_Model Mem_Model Vm_Model Ids_Model Ids_Spec Ids_Proofs
  Ast_Model Syms_Model Syms_Proofs Codegen_Model Codegen_Proofs Exprs_Model Exprs_Proofs Top_Model.

(** * Induction on statements *)

Section StmtInd.
Variable P : stmt -> Prop.
Hypothesis Simple : forall s,
  match s with
  | StCallable _ _ _ _ _ | StDo _ _ | StFor _ _ _ _ _ _ _ | StIf _ | StSelect _ _ _ | StWhile _ _ => False
  | _ => True
  end -> P s.
Hypothesis Callable : forall n np ps body ep, Forall P body -> P (StCallable n np ps body ep).
Hypothesis Do : forall g body, Forall P body -> P (StDo g body).
Hypothesis For : forall i ip d s e n body, Forall P body -> P (StFor i ip d s e n body).
Hypothesis If : forall bs, Forall (fun b => Forall P (snd b)) bs -> P (StIf bs).
Hypothesis Select : forall e cs ep, Forall (fun b => Forall P (snd b)) cs -> P (StSelect e cs ep).
Hypothesis While : forall e body, Forall P body -> P (StWhile e body).

Lemma stmt_rect' : forall s, P s.
Proof.
  fix IH 1.
  assert (L : forall l : list stmt, (forall s, In s l -> True) -> True) by auto. clear L.
  intros s; destruct s; try (apply Simple; exact I).
  - apply Callable. induction body; constructor; auto.
  - apply Do. induction body; constructor; auto.
  - apply For. induction body; constructor; auto.
  - apply If. induction branches as [|[e body] bs IHbs]; constructor; auto.
    cbn [snd]. clear IHbs. induction body; constructor; auto.
  - apply Select. induction cases as [|[g body] bs IHbs]; constructor; auto.
    cbn [snd]. clear IHbs. induction body; constructor; auto.
  - apply While. induction body; constructor; auto.
Qed.
End StmtInd.

(** [compile_stmt] as one equation: the inner loop is [compile_stmts]. *)
Lemma compile_stmt_eq s x :
  compile_stmt s x =
  let* x' :=
    match s with
    | StArrayAssignment v vpos subs e => compile_array_assignment v vpos subs e x
    | StAssignment v vpos e => s_assignment v vpos e x
    | StCall v vpos args => compile_call_stmt v vpos args x
    | StCallable name name_pos params body end_pos =>
        compile_callable name name_pos params (compile_stmts body) end_pos x
    | StData values => compile_data values x
    | StDeclare name name_pos params => compile_declare name name_pos params x
    | StDim name pos shared t => compile_dim name pos shared t x
    | StDimArray name pos shared dims t => compile_dim_array name pos shared dims t x
    | StDo g body => compile_do g (compile_stmts body) x
    | StEnd code pos => compile_end code pos x
    | StExitDo pos => compile_exit_do pos x
    | StExitFor pos => compile_exit_for pos x
    | StExitFunction pos => compile_exit_callable KFunction ExitFunction pos x
    | StExitSub pos => compile_exit_callable KSub ExitSub pos x
    | StFor iter iter_pos iter_double start end_ next body =>
        compile_for iter iter_pos iter_double start end_ next (compile_stmts body) x
    | StGosub target pos => COk (emit_fixup (FxGosub target) pos x)
    | StGoto target pos => COk (emit_fixup (FxGoto target) pos x)
    | StIf branches => compile_if (map (fun b => (fst b, compile_stmts (snd b))) branches) x
    | StLabel name pos => compile_label name pos x
    | StOnError o => COk (compile_on_error o x)
    | StReturn pos => COk (s_emit IReturn pos x)
    | StSelect e cases end_pos =>
        compile_select e (map (fun c => (fst c, compile_stmts (snd c))) cases) end_pos x
    | StWhile e body => compile_while e (compile_stmts body) x
    end in
  COk (mark_from s (s_pc x) x').
Proof.
  destruct s; try reflexivity.
  - cbn [compile_stmt]. f_equal. f_equal. induction branches as [|[e b] bs IH]; cbn [map]; [reflexivity|].
    apply (f_equal2 cons); [reflexivity|exact IH].
  - cbn [compile_stmt]. f_equal. f_equal. induction cases as [|[e0 b] bs IH]; cbn [map]; [reflexivity|].
    apply (f_equal2 cons); [reflexivity|exact IH].
Qed.

(** * Symbol tables only grow *)

Definition twf (t : symtab) : Prop := exists ord, wf t ord.
Definition tgrows (t t' : symtab) : Prop := (exists new, t' = t ++ new) /\ (twf t -> twf t').

Record lgrows (l l' : lsyms) : Prop := mkLgrows {
  lg_locals : tgrows (ls_locals l) (ls_locals l');
  lg_vars : tgrows (gs_vars (ls_global l)) (gs_vars (ls_global l'));
  lg_upcalls : gs_upcalls (ls_global l') = gs_upcalls (ls_global l);
  lg_user : forall k md, assoc (gs_user (ls_global l)) k = Some md ->
              assoc (gs_user (ls_global l')) k = Some md;
  lg_active : ls_active_temps l' = ls_active_temps l
}.

Lemma tgrows_refl t : tgrows t t.
Proof. split; [exists []; rewrite app_nil_r; reflexivity|auto]. Qed.
Lemma tgrows_trans a b c : tgrows a b -> tgrows b c -> tgrows a c.
Proof. intros [[n ->] W] [[m ->] W']. split; [exists (n ++ m); apply app_assoc_reverse|auto]. Qed.
Lemma tgrows_get t t' k e : tgrows t t' -> id_get ustr_eqb t k = Some e -> id_get ustr_eqb t' k = Some e.
Proof.
  intros [[n ->] _]. induction t as [|[k' e'] t IH]; cbn; [discriminate|].
  destruct (ustr_eqb k' k); auto.
Qed.

Lemma lgrows_refl l : lgrows l l.
Proof. constructor; auto using tgrows_refl. Qed.
Lemma lgrows_trans a b c : lgrows a b -> lgrows b c -> lgrows a c.
Proof. intros [] []. constructor; eauto using tgrows_trans; congruence. Qed.

Lemma lgrows_thaw l t : lgrows l (thaw l t).
Proof. constructor; cbn; auto using tgrows_refl. Qed.

Lemma id_insert_new (t : symtab) k p n t' i : id_insert ustr_eqb n t k p = Some (t', (None, i)) ->
  id_get ustr_eqb t k = None /\ t' = t ++ [(k, (p, i))] /\ i = N.of_nat (id_len t).
Proof.
  unfold id_insert. destruct (id_get ustr_eqb t k) as [[? ?]|] eqn:G; [discriminate|].
  destruct (_ <? n)%N; [|discriminate]. intros H. injection H as <- <-.
  split; [reflexivity|]. split; [|reflexivity]. apply (hm_insert_new _ ustr_eqb_eq). apply (get_none _ ustr_eqb_eq). assumption.
Qed.

Lemma twf_add t k p : twf t -> id_get ustr_eqb t k = None -> twf (t ++ [(k, (p, N.of_nat (id_len t)))]).
Proof.
  intros [ord (A & B & D)] G. exists (ord ++ [k]). split; [|split].
  - rewrite map_app, A. reflexivity.
  - rewrite map_app, B, app_length, Nat.add_comm. cbn [length Nat.add map snd].
    change (S (length ord)) with (1 + length ord). rewrite Nat.add_comm, seq_app, map_app. cbn.
    unfold id_len. rewrite <- A, map_length. reflexivity.
  - apply NoDup_Add with (a := k) (l := ord ++ []); [apply Add_app|]. rewrite app_nil_r. split; [exact D|].
    rewrite <- A. apply (get_none _ ustr_eqb_eq). exact G.
Qed.

Lemma tgrows_add t k p : id_get ustr_eqb t k = None -> tgrows t (t ++ [(k, (p, N.of_nat (id_len t)))]).
Proof. intros G. split; [eauto|]. intros W. apply twf_add; assumption. Qed.

Lemma put_var_grows key p t mk s t' r : put_var key p t mk s = Some (t', Ok r) ->
  id_get ustr_eqb t key = None /\ mk (N.of_nat (id_len t)) = Some r /\ t' = t ++ [(key, (p, N.of_nat (id_len t)))].
Proof.
  unfold put_var. destruct (id_insert ustr_eqb u8_ids t key p) as [[t0 [[?|] i]]|] eqn:E; try discriminate.
  destruct (mk i) eqn:M; [|discriminate]. intros H. injection H as <- <-.
  apply id_insert_new in E as (G & -> & ->). auto.
Qed.

Lemma put_local_grows l key p l' r : put_local l key p = Some (l', Ok r) -> lgrows l l' /\
  id_get ustr_eqb (ls_locals l) key = None /\
  exists i, register_local i = Some r /\ ls_locals l' = ls_locals l ++ [(key, (p, i))] /\
    ls_global l' = ls_global l /\ i = N.of_nat (id_len (ls_locals l)).
Proof.
  unfold put_local. destruct (put_var key p (ls_locals l) register_local ScLocal) as [[t [r0|?]]|] eqn:E; try discriminate.
  intros H. injection H as <- <-. apply put_var_grows in E as (G & M & ->).
  split; [|eauto 8]. constructor; cbn; auto using tgrows_refl, tgrows_add.
Qed.

Lemma put_global_grows l key p l' r : ls_put_global l key p = Some (l', Ok r) -> lgrows l l'.
Proof.
  unfold ls_put_global, put_global.
  destruct (put_var key p (gs_vars (ls_global l)) register_global ScGlobal) as [[t [r0|?]]|] eqn:E; try discriminate.
  intros H. injection H as <- <-. apply put_var_grows in E as (G & M & ->).
  constructor; cbn; auto using tgrows_refl, tgrows_add.
Qed.

Lemma assoc_insert_get {A} (l : list (ustr * A)) k v k' :
  assoc (assoc_insert l k v) k' = if ustr_eqb k k' then Some v else assoc l k'.
Proof.
  unfold assoc_insert. cbn [assoc]. destruct (ustr_eqb k k') eqn:E; [reflexivity|].
  induction l as [|[a x] l IH]; cbn [filter assoc fst]; [reflexivity|].
  destruct (ustr_eqb a k) eqn:F; cbn [negb assoc].
  - apply ustr_eqb_eq in F. subst a. rewrite E. exact IH.
  - destruct (ustr_eqb a k'); auto.
Qed.

Lemma declare_grows name pos ps l l' : declare_callable name pos ps l = COk l' -> lgrows l l' /\
  ls_locals l' = ls_locals l /\ gs_vars (ls_global l') = gs_vars (ls_global l).
Proof.
  unfold declare_callable, declare_user. destruct (contains_global _ _); [discriminate|].
  set (md := user_md name ps). clearbody md.
  destruct (assoc (gs_user (ls_global l)) (symkey (vr_name name))) as [prev|] eqn:A.
  - destruct (md_dec prev md) as [->|]; [|discriminate]. intros H. inv_ok. split; [|auto].
    constructor; cbn [ls_locals ls_global gs_vars gs_upcalls gs_user ls_active_temps]; auto using tgrows_refl.
    intros k m H. rewrite assoc_insert_get. destruct (ustr_eqb _ k) eqn:E; [|assumption].
    apply ustr_eqb_eq in E. subst k. congruence.
  - intros H. inv_ok. split; [|auto].
    constructor; cbn [ls_locals ls_global gs_vars gs_upcalls gs_user ls_active_temps]; auto using tgrows_refl.
    intros k m H. rewrite assoc_insert_get. destruct (ustr_eqb _ k) eqn:E; [|assumption].
    apply ustr_eqb_eq in E. subst k. congruence.
Qed.

(** * What a statement keeps *)

Definition within (b e : nat) (l : list (nat * linecol)) : Prop := Forall (fun p => b <= fst p < e) l.

Definition stack_grows (b e : nat) (s s' : list (list (nat * linecol))) : Prop :=
  match s with
  | [] => s' = []
  | top :: rest => exists new, s' = (top ++ new) :: rest /\ within b e new
  end.

Record sgrows (b : nat) (x x' : sst) : Prop := mkSgrows {
  sg_gen : grows b (s_gen x) (s_gen x');
  sg_data : exists new, t_data (fst x') = t_data (fst x) ++ new;
  sg_do : stack_grows b (s_pc x') (t_do (fst x)) (t_do (fst x'));
  sg_for : stack_grows b (s_pc x') (t_for (fst x)) (t_for (fst x'));
  sg_cur : t_current (fst x') = t_current (fst x);
  sg_exits : exists new, t_exits (fst x') = t_exits (fst x) ++ new /\ within b (s_pc x') new /\
               (t_current (fst x) = None -> new = []);
  sg_syms : lgrows (snd x) (snd x')
}.

Definition swf (x : sst) : Prop :=
  gwf (s_gen x) /\ (t_current (fst x) = None -> t_exits (fst x) = []).

Definition bframe (body : block) : Prop :=
  forall x x', body x = COk x' -> swf x -> sgrows (s_pc x) x x'.

Lemma within_weaken b e b' e' l : within b e l -> b' <= b -> e <= e' -> within b' e' l.
Proof. intros H ? ?. eapply Forall_impl; [|exact H]. cbn. lia. Qed.

Lemma stack_refl b e s : stack_grows b e s s.
Proof. destruct s; [reflexivity|]. exists []. rewrite app_nil_r. split; [reflexivity|constructor]. Qed.

Lemma stack_trans b e1 e2 s1 s2 s3 : e1 <= e2 -> stack_grows b e1 s1 s2 -> stack_grows b e2 s2 s3 ->
  stack_grows b e2 s1 s3.
Proof.
  intros L. destruct s1 as [|t r]; cbn.
  - intros ->. auto.
  - intros (n & -> & W) (m & -> & W'). exists (n ++ m). rewrite app_assoc. split; [reflexivity|].
    apply Forall_app. split; [eapply within_weaken; [exact W|lia|lia]|assumption].
Qed.

Lemma sgrows_pc b x x' : sgrows b x x' -> s_pc x <= s_pc x'.
Proof. intros [[L] _ _ _ _ _ _]. exact L. Qed.

Lemma sgrows_refl b x : sgrows b x x.
Proof.
  constructor; auto using grows_refl, stack_refl, lgrows_refl.
  - exists []. rewrite app_nil_r. reflexivity.
  - exists []. rewrite app_nil_r. repeat split. constructor.
Qed.

Lemma sgrows_trans b x y z : sgrows b x y -> sgrows b y z -> sgrows b x z.
Proof.
  intros A B. pose proof (sgrows_pc _ _ _ B) as L.
  destruct A as [G1 (d1 & D1) O1 F1 C1 (e1 & E1 & W1 & N1) S1], B as [G2 (d2 & D2) O2 F2 C2 (e2 & E2 & W2 & N2) S2].
  constructor.
  - eapply grows_trans; eassumption.
  - exists (d1 ++ d2). rewrite D2, D1, app_assoc. reflexivity.
  - eapply stack_trans; eassumption.
  - eapply stack_trans; eassumption.
  - congruence.
  - exists (e1 ++ e2). rewrite E2, E1, app_assoc. split; [reflexivity|]. split.
    + apply Forall_app. split; [eapply within_weaken; [exact W1|lia|lia]|assumption].
    + intros Q. rewrite N1, N2 by congruence. reflexivity.
  - eapply lgrows_trans; eassumption.
Qed.

Lemma sgrows_weaken b b' x y : sgrows b x y -> b' <= b -> sgrows b' x y.
Proof.
  intros [G D O F C (e & E & W & Q) S1] L. constructor; auto.
  - eapply grows_weaken; eassumption.
  - destruct (t_do (fst x)); [assumption|]. destruct O as (n & O1 & O2). exists n. split; [assumption|].
    eapply within_weaken; [exact O2|lia|lia].
  - destruct (t_for (fst x)); [assumption|]. destruct F as (n & O1 & O2). exists n. split; [assumption|].
    eapply within_weaken; [exact O2|lia|lia].
  - exists e. split; [assumption|]. split; [eapply within_weaken; [exact W|lia|lia]|assumption].
Qed.

Lemma sgrows_swf b x y : sgrows b x y -> swf x -> swf y.
Proof.
  intros [G D O F C (e & E & W & Q) S1] [W1 W2]. split; [eapply grows_gwf; eassumption|].
  rewrite C. intros H. rewrite E, W2, Q by assumption. reflexivity.
Qed.

(** Only the generator and the symbols change. *)
Lemma sgrows_gen b x g l : grows b (s_gen x) g -> lgrows (snd x) l -> sgrows b x (set_gen g (fst x), l).
Proof.
  intros G L. destruct x as [c l0]. constructor; cbn [fst snd set_gen t_data t_do t_for t_current t_exits s_gen t_gen] in *;
    auto using stack_refl.
  - exists []. rewrite app_nil_r. reflexivity.
  - exists []. rewrite app_nil_r. repeat split. constructor.
Qed.

Lemma s_gen_set g c l : s_gen (set_gen g c, l) = g.
Proof. reflexivity. Qed.

Lemma sgrows_emit b i pos x : swf x -> b <= s_pc x -> sgrows b x (s_emit i pos x).
Proof. intros [W _] L. apply sgrows_gen; [apply grows_emit; assumption|apply lgrows_refl]. Qed.

Lemma s_emit_pc i pos x : s_pc (s_emit i pos x) = S (s_pc x).
Proof. apply emit_pc. Qed.

Lemma s_patch_pc a i x : s_pc (s_patch a i x) = s_pc x.
Proof. apply patch_pc. Qed.

Lemma sgrows_patch b a i x : b <= a -> sgrows b x (s_patch a i x).
Proof. intros L. apply sgrows_gen; [apply grows_patch; assumption|apply lgrows_refl]. Qed.

Lemma patch_jumps_frame b e l : forall target x x', within b e l -> patch_jumps l target x = COk x' ->
  sgrows b x x' /\ s_pc x' = s_pc x.
Proof.
  induction l as [|[a pos] l IH]; intros target x x' W H; cbn [patch_jumps] in H.
  - inv_ok. split; [apply sgrows_refl|reflexivity].
  - apply Forall_cons_iff in W as [W1 W]. cbn [fst] in W1. inv_ok.
    destruct (IH _ _ _ W H) as [G P]. split.
    + eapply sgrows_trans; [|exact G]. apply sgrows_patch. lia.
    + rewrite P. apply s_patch_pc.
Qed.

Lemma guard_frame e x r x' : guard_expr e x = COk (r, x') -> swf x ->
  sgrows (s_pc x) x x' /\ s_pc x < s_pc x' /\ ls_locals (snd x') = ls_locals (snd x).
Proof.
  intros H [W _]. unfold guard_expr in H. inv_ok.
  apply open_ok in E as (S1 & S2 & S3). pose proof (alloc_in _ _ _ _ _ _ E0 S1) as S4.
  apply alloc_ok in E0 as (A1 & A2 & A3 & _ & A5 & _). destruct e0 as [g0 t9]. cbn [freeze fst snd] in *. subst g0.
  apply as_type_expr_frame in E1 as [[G P] Q]; [|exact W]. cbn [fst snd] in *.
  split; [|split; [exact Q|reflexivity]].
  apply sgrows_gen; [exact G|apply lgrows_thaw].
Qed.

(** Assignments. *)
Lemma assignment_frame v vpos e x x' : s_assignment v vpos e x = COk x' -> swf x ->
  sgrows (s_pc x) x x' /\ s_pc x < s_pc x'.
Proof.
  intros H [W _]. unfold s_assignment, compile_assignment in H. cbn [fst snd] in H. inv_ok. rename E into EB, E0 into EA.
  assert (X : lgrows (snd x) l0 /\ (o = None -> id_get ustr_eqb (ls_locals (snd x)) (symkey (vr_name v)) = None /\
     let i := N.of_nat (id_len (ls_locals (snd x))) in
     ls_locals l0 = ls_locals (snd x) ++ [(symkey (vr_name v), (PScalar TInteger, i))])).
  { clear EB. destruct (get_local_or_global (snd x) v) as [[r [t0 n0|t0]]|[s|s|s|s w]]; try discriminate.
    - inv_ok. split; [apply lgrows_refl|discriminate].
    - destruct (get_callable _ _); [discriminate|].
      destruct (put_local (snd x) _ _) as [[l1 [r|er]]|] eqn:PL; try discriminate. inv_ok.
      destruct (put_local_grows _ _ _ _ _ PL) as (G & N1 & i & _ & Q & _ & ->). split; [exact G|].
      intros V. split; [exact N1|]. rewrite Q, V. reflexivity. }
  destruct X as [L X]. clear EA.
  destruct o as [t|].
  - clear X. unfold map_error in EB.
    destruct (if b && references e (symkey (vr_name v)) then _ else _) as [[g1 l1]| |] eqn:R in EB; try discriminate.
    inv_ok. destruct (b && references e (symkey (vr_name v))).
    + inv_ok. apply open_ok in E as (S1 & S2 & S3). pose proof (alloc_in _ _ _ _ _ _ E0 S1) as S4.
      apply alloc_ok in E0 as (A1 & A2 & A3 & _ & A5 & _). destruct e0 as [g0 t9]. cbn [fst snd] in *. subst g0.
      apply as_type_expr_frame in E1 as [[G P] Q]; [|exact W]. cbn [fst snd] in *.
      unfold close, e_emit. cbn [fst snd]. unfold s_pc at 3. rewrite s_gen_set, emit_pc.
      split; [|unfold s_pc, s_gen in *; lia].
      apply sgrows_gen; [|eapply lgrows_trans; [exact L|apply lgrows_thaw]].
      eapply grows_trans; [exact G|]. apply grows_emit; [eapply grows_gwf; eassumption|unfold s_pc; lia].
    + inv_ok. apply as_type_expr_frame in E as [[G P] Q]; [|exact W]. cbn [fst snd] in *.
      split; [|exact Q]. apply sgrows_gen; [exact G|eapply lgrows_trans; [exact L|apply lgrows_thaw]].
  - destruct (X eq_refl) as (N1 & Q). set (i := N.of_nat (id_len (ls_locals (snd x)))) in *. inv_ok.
    destruct (compile_expr_frame _ _ _ _ _ _ E W) as [[G P] PC]. cbn [fst snd] in *.
    unfold fixup_local_type in EB. cbn [thaw ls_locals ls_global ls_count_temps ls_active_temps] in EB.
    assert (GK : id_get ustr_eqb (ls_locals l0) (symkey (vr_name v)) = Some (PScalar TInteger, i)).
    { rewrite Q. clear -N1. clearbody i. induction (ls_locals (snd x)) as [|[k e] t IH]; cbn in *.
      - rewrite ustr_eqb_refl. reflexivity.
      - destruct (ustr_eqb k _); [discriminate|auto]. }
    rewrite GK in EB. inv_ok. split; [|exact PC]. apply sgrows_gen; [exact G|].
    constructor; cbn [ls_locals ls_global ls_active_temps].
    + unfold id_set. rewrite GK, Q.
      replace (hm_insert _ _ _ _) with (ls_locals (snd x) ++ [(symkey (vr_name v), (PScalar e1, i))]); [apply tgrows_add; exact N1|].
      clear -N1. clearbody i. induction (ls_locals (snd x)) as [|[k e] t IH]; cbn in *.
      * rewrite ustr_eqb_refl. reflexivity.
      * destruct (ustr_eqb k _); [discriminate|]. rewrite IH by assumption. reflexivity.
    + apply L.
    + apply L.
    + apply L.
    + apply L.
Qed.

(** * Chains of steps *)

Definition ext (b : nat) (x0 x : sst) : Prop := sgrows b x0 x /\ swf x /\ b <= s_pc x.

Lemma ext_start x : swf x -> ext (s_pc x) x x.
Proof. intros W. split; [apply sgrows_refl|auto]. Qed.

Lemma ext_step b x0 x x' : ext b x0 x -> sgrows (s_pc x) x x' -> ext b x0 x'.
Proof.
  intros (G & W & L) G'. pose proof (sgrows_pc _ _ _ G'). split; [|split].
  - eapply sgrows_trans; [exact G|]. eapply sgrows_weaken; eassumption.
  - eapply sgrows_swf; eassumption.
  - lia.
Qed.

Lemma ext_emit b x0 x i pos : ext b x0 x -> ext b x0 (s_emit i pos x).
Proof. intros H. eapply ext_step; [exact H|]. apply sgrows_emit; [apply H|lia]. Qed.

Lemma ext_patch b x0 x a i : ext b x0 x -> b <= a -> ext b x0 (s_patch a i x).
Proof.
  intros (G & W & L) H. assert (G' := sgrows_patch b a i x H). split; [|split].
  - eapply sgrows_trans; eassumption.
  - eapply sgrows_swf; eassumption.
  - rewrite s_patch_pc. assumption.
Qed.

Lemma ext_jumps b x0 x l e target x' : ext b x0 x -> within b e l -> patch_jumps l target x = COk x' ->
  ext b x0 x' /\ s_pc x' = s_pc x.
Proof.
  intros (G & W & L) H P. destruct (patch_jumps_frame b e l _ _ _ H P) as [G' Q]. split; [|exact Q].
  split; [|split].
  - eapply sgrows_trans; eassumption.
  - eapply sgrows_swf; eassumption.
  - rewrite Q. assumption.
Qed.

Lemma ext_gen b x0 x g : ext b x0 x -> grows b (s_gen x) g ->
  ext b x0 (set_gen g (fst x), snd x).
Proof.
  intros (G & W & L) H. pose proof (gr_len _ _ _ H).
  assert (G' : sgrows b x (set_gen g (fst x), snd x)) by (apply sgrows_gen; [assumption|apply lgrows_refl]).
  split; [|split].
  - eapply sgrows_trans; eassumption.
  - eapply sgrows_swf; eassumption.
  - unfold s_pc in *. rewrite s_gen_set. lia.
Qed.

Lemma ext_mark b x0 x a : ext b x0 x -> b <= a ->
  ext b x0 (set_gen (mark_statement_start a (s_gen x)) (fst x), snd x).
Proof. intros H L. apply ext_gen; [assumption|apply grows_mark; assumption]. Qed.

Lemma ext_body b x0 x body x' : ext b x0 x -> bframe body -> body x = COk x' ->
  ext b x0 x' /\ s_pc x <= s_pc x'.
Proof.
  intros H B E. pose proof (B _ _ E (proj1 (proj2 H))) as G.
  split; [eapply ext_step; eassumption|apply (sgrows_pc _ _ _ G)].
Qed.

Lemma ext_guard b x0 x e r x' : ext b x0 x -> guard_expr e x = COk (r, x') ->
  ext b x0 x' /\ s_pc x < s_pc x'.
Proof.
  intros H E. destruct (guard_frame _ _ _ _ E (proj1 (proj2 H))) as (G & L & _).
  split; [eapply ext_step; eassumption|exact L].
Qed.

Lemma ext_assign b x0 x v vpos e x' : ext b x0 x -> s_assignment v vpos e x = COk x' ->
  ext b x0 x' /\ s_pc x < s_pc x'.
Proof.
  intros H E. destruct (assignment_frame _ _ _ _ _ E (proj1 (proj2 H))) as (G & L).
  split; [eapply ext_step; eassumption|exact L].
Qed.

Ltac sforward :=
  repeat match goal with
  | H : ext ?b ?x0 ?x, E : guard_expr _ ?x = COk (_, ?y) |- _ =>
      let K := fresh "K" in let L := fresh "L" in destruct (ext_guard _ _ _ _ _ _ H E) as [K L]; clear E
  | H : ext ?b ?x0 ?x, E : s_assignment _ _ _ ?x = COk ?y |- _ =>
      let K := fresh "K" in let L := fresh "L" in destruct (ext_assign _ _ _ _ _ _ _ H E) as [K L]; clear E
  | H : ext ?b ?x0 ?x, B : bframe ?body, E : ?body ?x = COk ?y |- _ =>
      let K := fresh "K" in let L := fresh "L" in destruct (ext_body _ _ _ _ _ H B E) as [K L]; clear E
  | H : ext ?b ?x0 ?x, E : context [s_emit ?i ?p ?x] |- _ =>
      lazymatch goal with
      | _ : ext b x0 (s_emit i p x) |- _ => fail
      | _ => let K := fresh "K" in pose proof (ext_emit _ _ _ i p H) as K
      end
  | H : ext ?b ?x0 ?x, E : context [s_patch ?a ?i ?x] |- _ =>
      lazymatch goal with
      | _ : ext b x0 (s_patch a i x) |- _ => fail
      | _ => let K := fresh "K" in assert (K : ext b x0 (s_patch a i x))
               by (apply ext_patch; [exact H|rewrite ?s_patch_pc, ?s_emit_pc in *; lia])
      end
  end.
Ltac send :=
  repeat first
    [ assumption
    | apply ext_patch; [|rewrite ?s_patch_pc, ?s_emit_pc in *; lia]
    | apply ext_emit ].

Lemma ext_while b x0 e body x x' : bframe body -> compile_while e body x = COk x' -> ext b x0 x ->
  ext b x0 x'.
Proof.
  intros B H K. pose proof (proj2 (proj2 K)) as Lb. unfold compile_while in H. inv_ok. sforward. send.
Qed.

Lemma do_pop b x y : sgrows b (set_do ([] :: t_do (fst x)) (fst x), snd x) y ->
  exists exits, t_do (fst y) = exits :: t_do (fst x) /\ within b (s_pc y) exits /\
    sgrows b x (set_do (t_do (fst x)) (fst y), snd y).
Proof.
  intros [G D O F C E L]. cbn [fst snd set_do t_do t_data t_for t_current t_exits s_gen t_gen] in *.
  destruct O as (n & O1 & O2). exists n. split; [exact O1|]. split; [exact O2|].
  constructor; cbn [fst snd set_do t_do t_data t_for t_current t_exits s_gen t_gen] in *; auto using stack_refl.
Qed.

Lemma for_pop b x y : sgrows b (set_for ([] :: t_for (fst x)) (fst x), snd x) y ->
  exists exits, t_for (fst y) = exits :: t_for (fst x) /\ within b (s_pc y) exits /\
    sgrows b x (set_for (t_for (fst x)) (fst y), snd y).
Proof.
  intros [G D O F C E L]. cbn [fst snd set_for t_do t_data t_for t_current t_exits s_gen t_gen] in *.
  destruct F as (n & O1 & O2). exists n. split; [exact O1|]. split; [exact O2|].
  constructor; cbn [fst snd set_for t_do t_data t_for t_current t_exits s_gen t_gen] in *; auto using stack_refl.
Qed.

Lemma do_frame g body : bframe body -> bframe (compile_do g body).
Proof.
  intros B x x' H W. unfold compile_do in H.
  set (x1 := (set_do ([] :: t_do (fst x)) (fst x), snd x)) in *.
  assert (W1 : swf x1) by exact W. pose proof (ext_start x1 W1) as K. change (s_pc x1) with (s_pc x) in K.
  apply bind_ok in H as (y & H1 & H2).
  assert (KY : ext (s_pc x) x1 y).
  { clear H2. change (s_pc x1) with (s_pc x) in H1. clearbody x1.
    assert (Lb := proj2 (proj2 K)).
    destruct g as [|e|e|e|e]; [| |eapply ext_while; eassumption| |];
      inv_ok; sforward; send. }
  destruct KY as (G & WY & LY). destruct (do_pop _ _ _ G) as (exits & Q & I & G2). rewrite Q in H2.
  destruct (patch_jumps_frame _ _ _ _ _ _ I H2) as [G3 _]. eapply sgrows_trans; eassumption.
Qed.

Lemma for_iterator_frame iter ipos d x x' : for_iterator iter ipos d x = COk x' -> swf x ->
  sgrows (s_pc x) x x' /\ fst x' = fst x.
Proof.
  intros H W. unfold for_iterator in H. destruct (d && _); [|inv_ok; split; [apply sgrows_refl|reflexivity]].
  destruct (get_local_or_global (snd x) iter) as [[r [t0 n0|t0]]|[s|s|s|s w]]; try discriminate;
    try (inv_ok; split; [apply sgrows_refl|reflexivity]).
  destruct (get_callable _ _); [discriminate|].
  destruct (put_local (snd x) _ _) as [[l1 [r|er]]|] eqn:PL; try discriminate. inv_ok.
  apply put_local_grows in PL as (G & _). split; [|reflexivity].
  destruct x as [c l]. pose proof (sgrows_gen (s_pc (c, l)) (c, l) (t_gen c) l1 (grows_refl _ _) G) as R.
  destruct c; exact R.
Qed.

Lemma for_frame iter ipos d start end_ next body : bframe body ->
  bframe (compile_for iter ipos d start end_ next body).
Proof.
  intros B x x' H W. unfold compile_for in H. inv_ok.
  destruct (for_iterator_frame _ _ _ _ _ E W) as [G0 F0].
  pose proof (ext_step _ _ _ _ (ext_start x W) G0) as K. clear E G0 F0.
  sforward.
  match goal with K : ext _ _ (s_emit INop (start_pos end_) ?y) |- _ => set (x2 := s_emit INop (start_pos end_) y) in *; rename K into K2 end.
  set (x3 := (set_gen (mark_statement_start (s_pc a0) (s_gen x2)) (fst x2), snd x2)) in *.
  pose proof (proj2 (proj2 K0)) as Lb0.
  assert (K3 : ext (s_pc x) x x3) by (apply ext_mark; [assumption|lia]).
  assert (P3 : s_pc x2 <= s_pc x3) by (apply Nat.eq_le_incl; reflexivity).
  assert (P2 : s_pc x2 = S (s_pc s)) by apply s_emit_pc.
  assert (WP : swf (set_for ([] :: t_for (fst x3)) (fst x3), snd x3)) by exact (proj1 (proj2 K3)).
  set (x4 := (set_for ([] :: t_for (fst x3)) (fst x3), snd x3)) in *.
  pose proof (ext_start x4 WP) as K4.
  assert (P4 : s_pc x4 = s_pc x3) by reflexivity.
  match goal with E : body _ = COk _ |- _ => destruct (ext_body _ _ _ _ _ K4 B E) as [K5 L5] end.
  sforward.
  match goal with H : context [t_for (fst (s_patch ?a ?i ?y))] |- _ =>
    assert (G5 : sgrows (s_pc x) x4 (s_patch a i y)); [|set (x9 := s_patch a i y) in *] end.
  { eapply sgrows_trans; [|apply sgrows_patch; lia].
    eapply sgrows_weaken; [match goal with K : ext (s_pc x4) x4 ?y |- sgrows _ x4 ?y => apply K end|lia]. }
  destruct (for_pop _ _ _ G5) as (exits & Q & I & G6). rewrite Q in H.
  destruct (patch_jumps_frame _ _ _ _ _ _ I H) as [G7 _].
  eapply sgrows_trans; [apply K3|]. eapply sgrows_trans; eassumption.
Qed.

Lemma branches_frame b x0 bs : Forall (fun p => bframe (snd p)) bs -> forall ends x ends' x',
  compile_branches bs ends x = COk (ends', x') -> ext b x0 x -> Forall (le b) ends ->
  ext b x0 x' /\ Forall (le b) ends'.
Proof.
  induction 1 as [|[e body] bs B BS IH]; intros ends x ends' x' H K L; cbn [compile_branches] in H.
  - inv_ok. auto.
  - cbn [snd] in B. inv_ok. pose proof (proj2 (proj2 K)) as Lb. sforward.
    destruct bs as [|p bs].
    + inv_ok. eapply IH; [exact H| |assumption]. send.
    + inv_ok. eapply IH; [exact H| |].
      * send.
      * apply Forall_app. split; [assumption|]. constructor; [|constructor].
        rewrite s_emit_pc in *. lia.
Qed.

Lemma if_frame bs : Forall (fun p => bframe (snd p)) bs -> bframe (compile_if bs).
Proof.
  intros B x x' H W. unfold compile_if in H. inv_ok.
  destruct (branches_frame (s_pc x) x _ B _ _ _ _ E (ext_start x W) (Forall_nil _)) as [K L].
  clear E. revert s H K. induction l as [|a l IH]; intros s H K; cbn [map patch_jumps] in H.
  - inv_ok. apply K.
  - apply Forall_cons_iff in L as [L1 L]. inv_ok.
    assert (T : s_pc s = s_pc (s_patch a (IJump a0) s)) by (symmetry; apply s_patch_pc).
    rewrite T in H. eapply IH; [exact L|exact H|]. apply ext_patch; assumption.
Qed.

(** ** SELECT *)

Definition eext (b : nat) (st0 st : est) : Prop := egrows b st0 st /\ gwf (fst st) /\ b <= next_pc (fst st).

Lemma eext_step b st0 st st' : eext b st0 st -> egrows (next_pc (fst st)) st st' -> eext b st0 st'.
Proof.
  intros (G & W & L) G'. pose proof (egrows_pc _ _ _ G') as P. split; [|split].
  - eapply egrows_trans; [exact G|]. destruct G' as [A C]. split; [eapply grows_weaken; eassumption|exact C].
  - eapply egrows_gwf; eassumption.
  - lia.
Qed.
Lemma eext_emit b st0 st i pos : eext b st0 st -> eext b st0 (e_emit i pos st).
Proof. intros H. eapply eext_step; [exact H|]. apply egrows_emit; [apply H|lia]. Qed.
Lemma eext_patch b st0 st a i : eext b st0 st -> b <= a -> eext b st0 (e_patch a i st).
Proof.
  intros (G & W & L) H. assert (G' : egrows b st (e_patch a i st)).
  { split; [apply grows_patch; assumption|reflexivity]. }
  split; [|split].
  - eapply egrows_trans; eassumption.
  - eapply egrows_gwf; eassumption.
  - unfold e_patch. cbn [fst]. rewrite patch_pc. assumption.
Qed.
Lemma e_emit_pc i pos st : next_pc (fst (e_emit i pos st)) = S (next_pc (fst st)).
Proof. apply emit_pc. Qed.
Lemma e_patch_pc a i st : next_pc (fst (e_patch a i st)) = next_pc (fst st).
Proof. apply patch_pc. Qed.

Lemma case_compare_frame l pos tr tt_ e o lhs rhs cond st st' :
  case_compare l pos tr tt_ e o lhs rhs cond st = COk st' -> gwf (fst st) ->
  egrows (next_pc (fst st)) st st'.
Proof.
  intros H W. unfold case_compare in H. inv_ok.
  pose proof (egrows_emit (next_pc (fst st)) (IMove lhs tr) pos st W (le_n _)) as G1.
  assert (W1 := egrows_gwf _ _ _ G1 W). pose proof (egrows_pc _ _ _ G1) as P1.
  destruct (compile_expr_frame _ _ _ _ _ _ E W1) as [G2 P2].
  assert (W2 := egrows_gwf _ _ _ G2 W1).
  unfold compile_case_relop in E0.
  set (g1 := match tt_, e1 with
    | TDouble, TInteger => (emit (I1 IntegerToDouble rhs) pos (fst e0), case_relop_instr o TDouble)
    | TInteger, TDouble => (emit (I1 IntegerToDouble lhs) pos (fst e0), case_relop_instr o TDouble)
    | _, _ => (fst e0, if etype_eqb tt_ e1 then case_relop_instr o tt_ else None)
    end) in *.
  assert (X : grows (next_pc (fst st)) (fst e0) (fst g1)).
  { destruct tt_, e1; subst g1; cbn [fst]; first [apply grows_refl | apply grows_emit; [assumption|lia]]. }
  destruct g1 as [g1 [op|]]; [|discriminate]. inv_ok. cbn [fst] in X.
  assert (W3 := grows_gwf _ _ _ X W2). pose proof (gr_len _ _ _ X) as P3.
  destruct G1 as [G1 T1], G2 as [G2 T2]. split.
  - cbn [fst]. eapply grows_trans; [exact G1|]. eapply grows_trans; [eapply grows_weaken; [exact G2|lia]|].
    eapply grows_trans; [exact X|]. apply grows_emit; [assumption|lia].
  - cbn [snd]. congruence.
Qed.

Lemma case_guard_frame l tr tt_ g st cond pos st' : compile_case_guard l tr tt_ g st = COk (cond, pos, st') ->
  gwf (fst st) -> egrows (next_pc (fst st)) st st'.
Proof.
  intros H W. destruct g as [o e|from to]; cbn [compile_case_guard] in H; inv_ok;
  repeat match goal with
  | E : open_scope _ _ = COk _ |- _ => apply open_ok in E as (? & ? & _)
  | E : alloc ?s _ ?st = COk (_, ?s', ?st'), I : scope_in ?s (snd ?st) |- _ =>
      pose proof (alloc_in _ _ _ _ _ _ E I); apply alloc_ok in E as (? & ? & _)
  end.
  - match goal with E : case_compare _ _ _ _ _ _ _ _ _ ?y = _ |- _ =>
      assert (F : fst y = fst st) by congruence; apply case_compare_frame in E as [G T]; [|rewrite F; assumption] end.
    rewrite F in *. split; [exact G|]. rewrite close_next; [congruence|]. unfold scope_in in *. congruence.
  - match goal with E : case_compare _ _ _ _ _ _ _ _ _ ?y = COk ?z, E' : case_compare _ _ _ _ _ _ _ _ _ ?z = COk ?w |- _ =>
      assert (F : fst y = fst st) by congruence;
      apply case_compare_frame in E as [G T]; [|rewrite F; assumption]; rewrite F in *;
      assert (W2 := grows_gwf _ _ _ G W); pose proof (gr_len _ _ _ G);
      apply case_compare_frame in E' as [G2 T2]; [|assumption];
      assert (W3 := grows_gwf _ _ _ G2 W2); pose proof (gr_len _ _ _ G2) end.
    split.
    + unfold close, e_emit. cbn [fst snd]. eapply grows_trans; [exact G|].
      eapply grows_trans; [eapply grows_weaken; [exact G2|assumption]|]. apply grows_emit; [assumption|lia].
    + rewrite close_next; [congruence|]. unfold scope_in, e_emit in *. cbn [snd]. congruence.
Qed.

Definition jumps_ok (b : nat) (l : list (nat * linecol)) : Prop := Forall (fun p => b <= fst p) l.

Lemma case_guards_frame b st0 l tr tt_ gs : forall jumps st jumps' st',
  case_guards l tr tt_ gs jumps st = COk (jumps', st') -> eext b st0 st -> jumps_ok b jumps ->
  eext b st0 st' /\ jumps_ok b jumps'.
Proof.
  induction gs as [|g gs IH]; intros jumps st jumps' st' H K J; cbn [case_guards] in H.
  - inv_ok. auto.
  - inv_ok. pose proof (eext_step _ _ _ _ K (case_guard_frame _ _ _ _ _ _ _ _ E (proj1 (proj2 K)))) as K1.
    pose proof (proj2 (proj2 K1)) as L1.
    eapply IH; [exact H| |].
    + apply eext_patch; [|lia]. apply eext_emit, eext_emit. exact K1.
    + apply Forall_app. split; [assumption|]. constructor; [|constructor]. cbn [fst]. rewrite e_emit_pc. lia.
Qed.

Definition pend_ok (b : nat) (p : block * list (nat * linecol) * bool) : Prop :=
  bframe (fst (fst p)) /\ jumps_ok b (snd (fst p)).
Definition next_ok (b : nat) (n : option (nat * linecol)) : Prop :=
  match n with Some (a, _) => b <= a | None => True end.

Lemma dispatch_frame b st0 l tr tt_ ep cs : Forall (fun p => bframe (snd p)) cs -> forall next pend st pend' next' st',
  select_dispatch l tr tt_ ep cs next pend st = COk (pend', next', st') -> eext b st0 st ->
  next_ok b next -> Forall (pend_ok b) pend ->
  eext b st0 st' /\ next_ok b next' /\ Forall (pend_ok b) pend'.
Proof.
  induction 1 as [|[gs body] cs B BS IH]; intros next pend st pend' next' st' H K N1 P; cbn [select_dispatch] in H.
  - inv_ok. auto.
  - cbn [snd] in B. apply bind_ok in H as (st1 & E & H).
    assert (K1 : eext b st0 st1).
    { unfold patch_next in E. destruct next as [[a p]|]; inv_ok; [|assumption]. apply eext_patch; assumption. }
    pose proof (proj2 (proj2 K1)) as L1. destruct gs as [|g gs].
    + eapply IH in H; [exact H|apply eext_emit; assumption|exact I|].
      apply Forall_app. split; [assumption|]. constructor; [|constructor]. split; [exact B|].
      constructor; [|constructor]. cbn [fst]. lia.
    + inv_ok. destruct (case_guards_frame _ _ _ _ _ _ _ _ _ _ E0 K1 (Forall_nil _)) as [K2 J].
      pose proof (proj2 (proj2 K2)) as L2.
      eapply IH in H; [exact H|apply eext_emit; assumption|exact L2|].
      apply Forall_app. split; [assumption|]. constructor; [|constructor]. split; [exact B|exact J].
Qed.

Lemma jumps_ext b x0 l : jumps_ok b l -> forall target x x', patch_jumps l target x = COk x' -> ext b x0 x ->
  ext b x0 x' /\ s_pc x' = s_pc x.
Proof.
  induction 1 as [|[a p] l L1 L IH]; intros target x x' H K; cbn [patch_jumps] in H.
  - inv_ok. auto.
  - cbn [fst] in L1. inv_ok. destruct (IH _ _ _ H (ext_patch _ _ _ _ _ K L1)) as [K2 P].
    split; [assumption|]. rewrite P. apply s_patch_pc.
Qed.

Lemma bodies_frame b x0 ep pend : Forall (pend_ok b) pend -> forall ends x ends' x',
  select_bodies ep pend ends x = COk (ends', x') -> ext b x0 x -> Forall (le b) ends ->
  ext b x0 x' /\ Forall (le b) ends'.
Proof.
  induction 1 as [|[[body jumps] hn] pend [B J] P IH]; intros ends x ends' x' H K L; cbn [select_bodies] in H.
  - inv_ok. auto.
  - cbn [fst snd] in B, J. inv_ok. destruct (jumps_ext _ _ _ J _ _ _ E K) as [K1 _].
    destruct (ext_body _ _ _ _ _ K1 B E0) as [K2 L2]. pose proof (proj2 (proj2 K2)) as Lb.
    destruct hn; (eapply IH; [exact H| |]).
    + apply ext_emit; assumption.
    + apply Forall_app. split; [assumption|]. constructor; [assumption|constructor].
    + assumption.
    + assumption.
Qed.

Lemma reserve_ok l r l' : reserve_temp l = Ok (r, l') ->
  ls_global l' = ls_global l /\ ls_locals l' = ls_locals l /\ ls_active_temps l' = (ls_active_temps l + 1)%N.
Proof.
  unfold reserve_temp. destruct (_ <? u8_ids)%N; [|discriminate]. destruct (_ <? u8_ids)%N; [|discriminate].
  destruct (temp_register _ _); [|discriminate]. intros H. apply Ok_pair in H as [_ <-]. auto.
Qed.

Lemma select_frame e cs ep : Forall (fun p => bframe (snd p)) cs -> bframe (compile_select e cs ep).
Proof.
  intros B x x' H W. unfold compile_select, of_syms in H.
  destruct (reserve_temp (snd x)) as [[tr l]|] eqn:R; [|discriminate]. apply reserve_ok in R as (R1 & R2 & R3).
  cbn [bind] in H. inv_ok.
  set (st0 := (s_gen x, frozen l)) in *. destruct W as [W W'].
  destruct (compile_expr_frame _ _ _ st0 _ _ E W) as [G P].
  assert (K : eext (s_pc x) st0 e0).
  { split; [exact G|]. split; [eapply egrows_gwf; [exact G|exact W]|]. apply Nat.lt_le_incl. exact P. }
  destruct (dispatch_frame _ _ _ _ _ _ _ B _ _ _ _ _ _ E0 K I (Forall_nil _)) as (K1 & N1 & P1).
  destruct K1 as ([K1 T1] & W1 & L1).
  set (x1 := (set_gen (fst e2) (fst x), release_temp (thaw l (snd e2)))) in *.
  assert (X1 : ext (s_pc x) x x1).
  { assert (G1 : sgrows (s_pc x) x x1).
    { apply sgrows_gen; [exact K1|]. constructor; cbn [release_temp thaw ls_locals ls_global ls_active_temps];
        rewrite ?R1, ?R2; auto using tgrows_refl. rewrite R3. lia. }
    split; [exact G1|]. split; [|exact L1]. eapply sgrows_swf; [exact G1|split; assumption]. }
  pose proof (proj2 (proj2 X1)) as Lx1.
  set (x2 := s_emit INop ep x1) in *. assert (X2 : ext (s_pc x) x x2) by (apply ext_emit; assumption).
  assert (X3 : ext (s_pc x) x a).
  { destruct o as [[a9 p9]|]; inv_ok; [|assumption]. apply ext_patch; assumption. }
  destruct (bodies_frame _ _ _ _ P1 _ _ _ _ E2 X3 (Forall_nil _)) as [X4 L4].
  clear -X4 L4 Lx1. rename a0 into t.
  assert (X5 : ext (s_pc x) x (s_patch (s_pc x1) (IJump t) s)) by (apply ext_patch; assumption).
  revert X5. generalize (s_patch (s_pc x1) (IJump t) s). clear X4. induction L4 as [|a9 l9 La L IH]; intros y K; cbn [fold_left].
  - apply K.
  - apply IH. apply ext_patch; assumption.
Qed.

(** ** Callables *)

Lemma define_params_grows ps pos : forall l l', define_params ps pos l = COk l' -> lgrows l l'.
Proof.
  induction ps as [|p ps IH]; intros l l' H; cbn [define_params] in H.
  - inv_ok. apply lgrows_refl.
  - destruct (put_local l _ _) as [[l1 [r|er]]|] eqn:PL; try discriminate.
    apply put_local_grows in PL as (G & _). eapply lgrows_trans; [exact G|eauto].
Qed.

Lemma define_result_ext name key pos x x' : define_result name key pos x = COk x' -> swf x ->
  sgrows (s_pc x) x x'.
Proof.
  intros H [W _]. unfold define_result in H. destruct (vr_type name) as [t|]; [|inv_ok; apply sgrows_refl].
  destruct (put_local (snd x) _ _) as [[l1 [r|er]]|] eqn:PL; try discriminate.
  apply put_local_grows in PL as (G & _). inv_ok.
  assert (Y : grows (s_pc x) (s_gen x) c /\ g_code c = g_code (s_gen x)).
  { destruct t; inv_ok; first [split; [apply grows_refl|reflexivity] |
      apply (grows_constant (s_pc x)) in E; [|assumption]; split; apply E]. }
  destruct Y as [Y1 Y2]. apply sgrows_gen; [|exact G].
  eapply grows_trans; [exact Y1|]. apply grows_emit; [eapply grows_gwf; eassumption|].
  rewrite (next_pc_eq _ _ Y2). apply le_n.
Qed.

Lemma user_callable_frame name np ps body ep : bframe body ->
  bframe (compile_user_callable name np ps body ep).
Proof.
  intros B x x' H W. unfold compile_user_callable in H.
  destruct (t_current (fst x)) eqn:CUR; [discriminate|]. pose proof (proj2 W CUR) as EX.
  set (x1 := s_emit INop np x) in *. cbn zeta in H.
  pose proof (ext_emit _ _ _ INop np (ext_start x W)) as K1. fold x1 in K1.
  set (kind := match vr_type name with Some _ => KFunction | None => KSub end) in *.
  set (x2 := (set_current (Some kind) (fst x1), enter_scope (ls_global (snd x)))) in *.
  assert (W2 : swf x2).
  { split; [exact (proj1 (proj1 (proj2 K1)))|]. cbn. discriminate. }
  inv_ok. pose proof (ext_step _ _ _ _ (ext_start x2 W2) (define_result_ext _ _ _ _ _ E W2)) as K3.
  apply define_params_grows in E0.
  assert (K4 : ext (s_pc x2) x2 (fst a, a0)).
  { destruct K3 as (G3 & W3 & L3).
    assert (G4 : sgrows (s_pc x2) a (fst a, a0)).
    { pose proof (sgrows_gen (s_pc x2) a (s_gen a) a0 (grows_refl _ _) E0) as R. destruct a as [c l]; destruct c; exact R. }
    split; [eapply sgrows_trans; eassumption|]. split; [eapply sgrows_swf; eassumption|exact L3]. }
  destruct (ext_body _ _ _ _ _ K4 B E1) as [K5 _].
  pose proof (ext_emit _ _ _ IReturn ep K5) as K6.
  set (y := s_emit IReturn ep a1) in *.
  assert (XE : within (s_pc x2) (s_pc y) (t_exits (fst y))).
  { destruct K6 as ([_ _ _ _ _ (e & E9 & E8 & _) _] & _). rewrite E9.
    change (t_exits (fst x2)) with (t_exits (fst x)). rewrite EX. exact E8. }
  destruct (ext_jumps _ _ _ _ _ _ _ K6 XE E2) as [K7 _].
  destruct K7 as ([G D O F C X L] & W7 & L7).
  assert (P2 : s_pc x2 = S (s_pc x)) by apply s_emit_pc.
  assert (G1 : grows (s_pc x) (s_gen x) (s_gen x2)) by apply K1.
  constructor; cbn [fst snd set_gen set_current set_exits t_data t_do t_for t_current t_exits s_gen t_gen define_user_callable patch with_code] in *.
  - eapply grows_trans; [exact G1|]. eapply grows_trans; [eapply grows_weaken; [exact G|lia]|].
    match goal with |- grows _ _ (patch _ _ ?g) => eapply grows_trans with (g2 := g); [|apply grows_patch; lia] end.
    constructor; cbn [define_user_callable g_code g_instrs g_constants g_upcalls g_fixups g_labels]; auto.
    + intros ord WO. exists []. rewrite app_nil_r. exact WO.
    + intros ord WO. exists []. rewrite app_nil_r. exact WO.
    + exists []. split; [reflexivity|constructor].
  - exact D.
  - change (t_do (fst x2)) with (t_do (fst x)) in O.
    destruct (t_do (fst x)); [exact O|]. destruct O as (n & O1 & O2). exists n. split; [exact O1|].
    eapply within_weaken; [exact O2|lia|]. unfold s_pc. rewrite s_gen_set, patch_pc. apply le_n.
  - change (t_for (fst x2)) with (t_for (fst x)) in F.
    destruct (t_for (fst x)); [exact F|]. destruct F as (n & O1 & O2). exists n. split; [exact O1|].
    eapply within_weaken; [exact O2|lia|]. unfold s_pc. rewrite s_gen_set, patch_pc. apply le_n.
  - symmetry. exact CUR.
  - exists []. rewrite EX. repeat split. constructor.
  - destruct L as [L1 L2 L3 L4 L5]. constructor; cbn [ls_locals ls_global ls_active_temps enter_scope] in *; auto using tgrows_refl.
Qed.

(** Changing fields of the context that nothing here looks at. *)
Lemma sgrows_defined b x y d : sgrows b x y ->
  sgrows b x (mkTctx (t_gen (fst y)) (t_data (fst y)) (t_do (fst y)) (t_for (fst y)) (t_current (fst y)) d
                (t_exits (fst y)), snd y).
Proof. intros [G D O F C X L]. constructor; assumption. Qed.

Lemma sgrows_syms b x l : lgrows (snd x) l -> sgrows b x (fst x, l).
Proof.
  intros L. pose proof (sgrows_gen b x (s_gen x) l (grows_refl _ _) L) as R. destruct x as [c l0]; destruct c; exact R.
Qed.

Lemma callable_frame name np ps body ep : bframe body -> bframe (compile_callable name np ps body ep).
Proof.
  intros B x x' H W. unfold compile_callable in H. inv_ok.
  apply declare_grows in E as (L & _). destruct (existsb _ _); [discriminate|]. inv_ok.
  pose proof (sgrows_syms (s_pc x) x a L) as G. assert (W1 := sgrows_swf _ _ _ G W).
  pose proof (user_callable_frame _ _ _ _ _ B _ _ E W1) as G1. apply sgrows_defined.
  eapply sgrows_trans; [exact G|exact G1].
Qed.

(** Code emitted by expression compilation on the frozen table. *)
Lemma unfreeze_frame x st : grows (s_pc x) (s_gen x) (fst st) -> sgrows (s_pc x) x (unfreeze x st).
Proof. intros G. apply sgrows_gen; [exact G|apply lgrows_thaw]. Qed.

Lemma exprs_closures l es : Forall (fun e => match e with Some (_, c) => cframe c | None => True end)
  (map (fun e => Some (e, compile_expr l e)) es).
Proof. induction es; constructor; auto using compile_expr_frame. Qed.

Lemma array_assignment_frame v vpos subs e x x' : compile_array_assignment v vpos subs e x = COk x' -> swf x ->
  sgrows (s_pc x) x x'.
Proof.
  intros H [W _]. unfold compile_array_assignment in H. inv_ok. clear E. destruct (negb _); [discriminate|]. inv_ok.
  destruct o; [|discriminate]. inv_ok.
  apply open_ok in E as (S1 & S2 & _). pose proof (alloc_in _ _ _ _ _ _ E0 S1) as S4.
  apply alloc_ok in E0 as (A1 & A2 & _). destruct e1 as [g0 t9]. cbn [freeze fst snd] in *. subst g0.
  apply as_type_expr_frame in E1 as [[G P] Q]; [|exact W]. cbn [fst snd] in *.
  assert (W1 := grows_gwf _ _ _ G W).
  assert (S5 : scope_in t (snd a0)) by (unfold scope_in in *; congruence).
  destruct (integer_exprs_frame _ _ _ _ _ _ _ _ (next_pc (s_gen x)) (exprs_closures _ _) E2 W1) as (G2 & I & Q2 & _);
    [lia|exact S5|].
  assert (W2 := grows_gwf _ _ _ G2 W1). pose proof (gr_len _ _ _ G2) as P2.
  apply unfreeze_frame. unfold close, e_emit. cbn [fst snd].
  eapply grows_trans; [exact G|]. eapply grows_trans; [exact G2|]. apply grows_emit; [assumption|unfold s_pc; lia].
Qed.

Lemma define_new_arg_frame v pos g l g' l' : define_new_arg v pos (g, l) = COk (g', l') -> gwf g ->
  grows (next_pc g) g g' /\ lgrows l l'.
Proof.
  intros H W. unfold define_new_arg in H. cbn [fst snd] in H.
  destruct (put_local l _ _) as [[l1 [r|er]]|] eqn:PL; try discriminate. inv_ok.
  apply put_local_grows in PL as (G & _). split; [|exact G]. apply grows_emit; [assumption|apply le_n].
Qed.

Lemma define_ref_frame e g l g' l' : define_ref e (g, l) = COk (g', l') -> gwf g ->
  grows (next_pc g) g g' /\ lgrows l l'.
Proof.
  intros H W. unfold define_ref in H. cbn [fst snd] in H.
  assert (R : (g, l) = (g', l') -> grows (next_pc g) g g' /\ lgrows l l').
  { intros Q. inv_ok. split; [apply grows_refl|apply lgrows_refl]. }
  destruct e as [[]|]; try (apply COk_inj in H; auto; fail).
  destruct (get_local_or_global l v) as [[r [t0 n0|t0]]|[s|s|s|s w]]; try (apply COk_inj in H; auto; fail).
  destruct (get_callable _ _); [apply COk_inj in H; auto|]. eapply define_new_arg_frame; eassumption.
Qed.

Lemma define_trans b g1 g2 g3 l1 l2 l3 : b <= next_pc g1 ->
  grows (next_pc g1) g1 g2 /\ lgrows l1 l2 -> grows (next_pc g2) g2 g3 /\ lgrows l2 l3 ->
  grows b g1 g3 /\ lgrows l1 l3.
Proof.
  intros L [A B] [C D]. split; [|eapply lgrows_trans; eassumption]. pose proof (gr_len _ _ _ A).
  eapply grows_trans; eapply grows_weaken; eauto. lia.
Qed.

Lemma define_singular_frame syns : forall args g l rest g' l',
  define_singular syns args (g, l) = COk (rest, (g', l')) -> gwf g ->
  grows (next_pc g) g g' /\ lgrows l l'.
Proof.
  induction syns as [|[n t s|n ra df s|n t s|n am s] syns IH]; intros args g l rest g' l' H W; cbn [define_singular] in H.
  - inv_ok. split; [apply grows_refl|apply lgrows_refl].
  - destruct args; [discriminate|]. eapply IH; eassumption.
  - destruct args as [|[[e sep] sp] args]; [discriminate|]. apply bind_ok in H as ([g1 l1] & E & H). destruct df.
    + destruct (define_ref_frame _ _ _ _ _ E W) as [G L].
      eapply define_trans; [apply le_n|split; eassumption|].
      eapply IH; [exact H|]. eapply grows_gwf; eassumption.
    + inv_ok. eapply IH; eassumption.
  - eapply IH; eassumption.
  - eapply IH; eassumption.
Qed.

Lemma define_repeated_frame args : forall g l g' l',
  define_repeated args (g, l) = COk (g', l') -> gwf g -> grows (next_pc g) g g' /\ lgrows l l'.
Proof.
  induction args as [|[[e sep] sp] args IH]; intros g l g' l' H W; cbn [define_repeated] in H.
  - inv_ok. split; [apply grows_refl|apply lgrows_refl].
  - apply bind_ok in H as ([g1 l1] & E & H). destruct (define_ref_frame _ _ _ _ _ E W) as [G L].
    eapply define_trans; [apply le_n|split; eassumption|].
    eapply IH; [exact H|]. eapply grows_gwf; eassumption.
Qed.

Lemma define_new_args_frame md vpos args g l g' l' : define_new_args md vpos args (g, l) = COk (g', l') ->
  gwf g -> grows (next_pc g) g g' /\ lgrows l l'.
Proof.
  intros H W. unfold define_new_args in H. destruct (find_syntax _ _) as [syn|]; [|discriminate].
  apply bind_ok in H as ([rest [g1 l1]] & E & H).
  destruct (define_singular_frame _ _ _ _ _ _ _ E W) as [G L].
  eapply define_trans; [apply le_n|split; eassumption|]. assert (W1 := grows_gwf _ _ _ G W).
  assert (R : COk (g1, l1) = COk (g', l') -> grows (next_pc g1) g1 g' /\ lgrows l1 l').
  { intros Q. inv_ok. split; [apply grows_refl|apply lgrows_refl]. }
  destruct (sy_repeated syn) as [[n [|t|] s o m]|]; auto. eapply define_repeated_frame; eassumption.
Qed.

Lemma call_stmt_frame v vpos args x x' : compile_call_stmt v vpos args x = COk x' -> swf x -> sgrows (s_pc x) x x'.
Proof.
  intros H [W _]. unfold compile_call_stmt in H. destruct (get_callable _ _) as [md|]; [|discriminate].
  destruct (md_return md); [discriminate|].
  apply bind_ok in H as ([g1 l1] & E & H). apply bind_ok in H as ([[st r] lcs] & E0 & H).
  apply bind_ok in H as (g2 & E1 & H). inv_ok.
  destruct (define_new_args_frame _ _ _ _ _ _ _ E W) as [G L]. assert (W1 := grows_gwf _ _ _ G W).
  pose proof (gr_len _ _ _ G) as P.
  destruct (compile_args_frame _ _ _ _ _ _ _ _ (next_pc (s_gen x)) (with_closure_frame _ _) E0 W1) as [G2 _]; [exact P|].
  cbn [freeze fst snd s_gen set_gen t_gen unfreeze] in *.
  assert (W2 := grows_gwf _ _ _ G2 W1). pose proof (gr_len _ _ _ G2) as P2.
  unfold s_pc in E1. cbn [freeze fst snd s_gen set_gen t_gen unfreeze] in E1.
  apply sgrows_gen.
  - eapply grows_trans; [exact G|]. eapply grows_trans; [exact G2|]. unfold s_pc in *.
    destruct (md_user md).
    + inv_ok. eapply grows_trans; [apply (grows_emit _ INop vpos); [exact W2|lia]|].
      eapply grows_trans; [apply (grows_set_args _ (next_pc (fst st)) lcs); lia|]. apply grows_fixup.
      rewrite set_args_pc, emit_pc. lia.
    + apply bind_ok in E1 as ([c9 n] & E2 & E1). inv_ok. destruct (grows_upcall (next_pc (s_gen x)) _ _ _ _ _ _ E2 W2) as (U & C & _).
      assert (W3 := grows_gwf _ _ _ U W2). rewrite (next_pc_eq _ _ C) in *.
      eapply grows_trans; [exact U|]. eapply grows_trans; [apply (grows_emit _ (upcall_instr md n r) vpos); [exact W3|]|].
      * rewrite (next_pc_eq _ _ C). lia.
      * apply grows_set_args. lia.
  - cbn [unfreeze snd]. eapply lgrows_trans; [exact L|apply lgrows_thaw].
Qed.

Lemma dim_register_grows name pos shared p l r l' : dim_register name pos shared p l = COk (r, l') -> lgrows l l'.
Proof.
  unfold dim_register. destruct (get_callable _ _); [discriminate|]. destruct shared.
  - destruct (contains_global _ _); [discriminate|].
    destruct (ls_put_global l _ p) as [[l1 [r1|er]]|] eqn:PG; try discriminate. intros H. inv_ok.
    eapply put_global_grows; eassumption.
  - destruct (contains_local _ _); [discriminate|].
    destruct (put_local l _ p) as [[l1 [r1|er]]|] eqn:PG; try discriminate. intros H. inv_ok.
    apply put_local_grows in PG. apply PG.
Qed.

Lemma dim_array_frame name pos shared dims t x x' : compile_dim_array name pos shared dims t x = COk x' ->
  swf x -> sgrows (s_pc x) x x'.
Proof.
  intros H [W _]. unfold compile_dim_array in H. inv_ok. apply dim_register_grows in E.
  destruct o; [|discriminate]. destruct (packed_new _ _); [|discriminate]. inv_ok.
  apply open_ok in E0 as (S1 & S2 & _).
  destruct (integer_exprs_frame _ _ _ _ _ _ _ _ (s_pc x) (exprs_closures _ _) E1 W (le_n _) S1) as (G2 & I & Q2 & _).
  assert (W2 := grows_gwf _ _ _ G2 W). pose proof (gr_len _ _ _ G2) as P2.
  unfold unfreeze, close, e_emit. cbn [fst snd].
  apply sgrows_gen; [|eapply lgrows_trans; [exact E|apply lgrows_thaw]].
  eapply grows_trans; [exact G2|]. apply grows_emit; [assumption|]. exact P2.
Qed.

Lemma end_frame code pos x x' : compile_end code pos x = COk x' -> swf x -> sgrows (s_pc x) x x'.
Proof.
  intros H [W _]. unfold compile_end in H. apply bind_ok in H as (u & _ & H). clear u. inv_ok.
  apply open_ok in E as (S1 & S2 & _). pose proof (alloc_in _ _ _ _ _ _ E0 S1) as S4.
  apply alloc_ok in E0 as (A1 & A2 & _). destruct e as [g0 t9]. cbn [freeze fst snd] in *. subst g0.
  assert (G : grows (s_pc x) (s_gen x) (fst a0)).
  { destruct code as [e|].
    - apply as_type_expr_frame in E1 as [[G P] Q]; [|exact W]. exact G.
    - inv_ok. apply grows_emit; [assumption|apply le_n]. }
  assert (W2 := grows_gwf _ _ _ G W). pose proof (gr_len _ _ _ G) as P2.
  apply unfreeze_frame. unfold close, e_emit. cbn [fst snd].
  eapply grows_trans; [exact G|]. apply grows_emit; [assumption|exact P2].
Qed.

Lemma emit_fixup_frame f pos x : swf x -> sgrows (s_pc x) x (emit_fixup f pos x).
Proof.
  intros [W _]. apply sgrows_gen; [|apply lgrows_refl].
  eapply grows_trans; [apply (grows_emit _ INop pos); [assumption|apply le_n]|].
  apply grows_fixup. rewrite emit_pc. unfold s_pc. lia.
Qed.

Lemma exit_do_frame pos x x' : compile_exit_do pos x = COk x' -> swf x -> sgrows (s_pc x) x x'.
Proof.
  intros H W. unfold compile_exit_do in H. destruct (t_do (fst x)) as [|top rest] eqn:T; [discriminate|]. inv_ok.
  pose proof (sgrows_emit (s_pc x) INop pos x W (le_n _)) as [G D O F C X L].
  constructor; cbn [fst snd set_do t_data t_do t_for t_current t_exits] in *; try assumption.
  rewrite T. exists [(s_pc x, pos)]. split; [reflexivity|]. constructor; [|constructor]. cbn [fst].
  change (s_pc x <= s_pc x < s_pc (s_emit INop pos x)). rewrite s_emit_pc. lia.
Qed.

Lemma exit_for_frame pos x x' : compile_exit_for pos x = COk x' -> swf x -> sgrows (s_pc x) x x'.
Proof.
  intros H W. unfold compile_exit_for in H. destruct (t_for (fst x)) as [|top rest] eqn:T; [discriminate|]. inv_ok.
  pose proof (sgrows_emit (s_pc x) INop pos x W (le_n _)) as [G D O F C X L].
  constructor; cbn [fst snd set_for t_data t_do t_for t_current t_exits] in *; try assumption.
  rewrite T. exists [(s_pc x, pos)]. split; [reflexivity|]. constructor; [|constructor]. cbn [fst].
  change (s_pc x <= s_pc x < s_pc (s_emit INop pos x)). rewrite s_emit_pc. lia.
Qed.

Lemma exit_callable_frame k e pos x x' : compile_exit_callable k e pos x = COk x' -> swf x -> sgrows (s_pc x) x x'.
Proof.
  intros H W. unfold compile_exit_callable in H.
  destruct (t_current (fst x)) as [k'|] eqn:T; [|discriminate]. destruct (ckind_eqb k k'); [|discriminate]. inv_ok.
  pose proof (sgrows_emit (s_pc x) INop pos x W (le_n _)) as [G D O F C X L].
  constructor; cbn [fst snd set_exits t_data t_do t_for t_current t_exits] in *; try assumption.
  exists [(s_pc x, pos)]. split; [reflexivity|]. split.
  - constructor; [|constructor]. cbn [fst].
    change (s_pc x <= s_pc x < s_pc (s_emit INop pos x)). rewrite s_emit_pc. lia.
  - congruence.
Qed.

Lemma stmts_frame l : Forall (fun s => bframe (compile_stmt s)) l -> bframe (compile_stmts l).
Proof.
  induction 1 as [|s l B BS IH]; intros x x' H W; cbn [compile_stmts] in H.
  - inv_ok. apply sgrows_refl.
  - inv_ok. pose proof (B _ _ E W) as G. pose proof (sgrows_pc _ _ _ G).
    eapply sgrows_trans; [exact G|]. eapply sgrows_weaken; [apply (IH _ _ H)|assumption].
    eapply sgrows_swf; eassumption.
Qed.

Theorem stmt_frame s : bframe (compile_stmt s).
Proof.
  induction s using stmt_rect'; intros x x' H0 W; rewrite compile_stmt_eq in H0; apply bind_ok in H0 as (y & E & Q); inv_ok.
  all: match goal with |- sgrows ?b ?x (mark_from _ ?b ?y) => assert (G : sgrows b x y); [|
    unfold mark_from; destruct (_ && _); [|exact G];
    eapply sgrows_trans; [exact G|]; apply sgrows_gen; [apply grows_mark; apply le_n|apply lgrows_refl]] end.
  - destruct s; try contradiction.
    + eapply array_assignment_frame; eassumption.
    + eapply assignment_frame; eassumption.
    + eapply call_stmt_frame; eassumption.
    + unfold compile_data in E. inv_ok. destruct (sgrows_refl (s_pc x) x) as [G D O F C X L].
      constructor; cbn [fst snd t_data t_do t_for t_current t_exits]; try assumption. eauto.
    + unfold compile_declare in E. destruct (t_current _); [discriminate|]. inv_ok.
      apply declare_grows in E0 as (L & _). apply sgrows_syms. exact L.
    + unfold compile_dim in E. inv_ok. apply dim_register_grows in E0. apply sgrows_gen; [|exact E0].
      apply grows_emit; [apply W|apply le_n].
    + eapply dim_array_frame; eassumption.
    + eapply end_frame; eassumption.
    + eapply exit_do_frame; eassumption.
    + eapply exit_for_frame; eassumption.
    + eapply exit_callable_frame; eassumption.
    + eapply exit_callable_frame; eassumption.
    + inv_ok. apply emit_fixup_frame; assumption.
    + inv_ok. apply emit_fixup_frame; assumption.
    + unfold compile_label in E. destruct (define_label _ _ _) as [g fresh] eqn:DL.
      destruct fresh; [|discriminate]. inv_ok. apply sgrows_gen; [|apply lgrows_refl].
      unfold define_label in DL. apply pair_inj in DL as [<- DL].
      destruct (assoc (g_labels (s_gen x)) (symkey name)) eqn:A; [discriminate|].
      constructor; cbn [g_code g_instrs g_constants g_upcalls g_fixups g_labels]; auto.
      * intros ord WO. exists []. rewrite app_nil_r. exact WO.
      * intros ord WO. exists []. rewrite app_nil_r. exact WO.
      * exists []. split; [reflexivity|constructor].
      * intros k a K. rewrite assoc_insert_get. destruct (ustr_eqb _ k) eqn:EK; [|assumption].
        apply ustr_eqb_eq in EK. subst k. congruence.
    + inv_ok. destruct o; cbn [compile_on_error].
      * apply emit_fixup_frame; assumption.
      * apply sgrows_emit; [assumption|apply le_n].
      * apply sgrows_emit; [assumption|apply le_n].
    + inv_ok. apply sgrows_emit; [assumption|apply le_n].
  - eapply callable_frame; [apply stmts_frame|exact E|exact W]. assumption.
  - eapply do_frame; [apply stmts_frame|exact E|exact W]. assumption.
  - eapply for_frame; [apply stmts_frame|exact E|exact W]. assumption.
  - eapply if_frame; [|exact E|exact W]. apply Forall_map. eapply Forall_impl; [|eassumption].
    intros b B. apply stmts_frame. exact B.
  - eapply select_frame; [|exact E|exact W]. apply Forall_map. eapply Forall_impl; [|eassumption].
    intros b B. apply stmts_frame. exact B.
  - pose proof (ext_while _ _ _ _ _ _ (stmts_frame _ H) E (ext_start _ W)) as K. apply K.
Qed.

Lemma input_frame l : forall x x', compile_input l x = (x', COk tt) -> swf x -> sgrows (s_pc x) x x' /\
  compile_stmts l x = COk x'.
Proof.
  induction l as [|s l IH]; intros x x' H W; cbn [compile_input compile_stmts] in *.
  - apply pair_inj in H as [<- _]. split; [apply sgrows_refl|reflexivity].
  - destruct (compile_stmt s x) as [y| |] eqn:E; try (apply pair_inj in H as [_ H]; discriminate).
    pose proof (stmt_frame _ _ _ E W) as G. pose proof (sgrows_pc _ _ _ G).
    destruct (IH _ _ H (sgrows_swf _ _ _ G W)) as [G2 S2].
    split; [|exact S2]. eapply sgrows_trans; [exact G|]. eapply sgrows_weaken; eassumption.
Qed.
