(** The statements that direct control, by induction on [exec]. *)
From Verif Require Import Base Bytecode_Model Bytecode_Spec Bytecode_Proofs Mem_Model Mem_Spec Mem_Proofs Num_Model
  Vm_Model Vm_Spec Vm_Proofs Ids_Model Ids_Spec Ids_Proofs Ast_Model Syms_Model Syms_Proofs Codegen_Model
  Codegen_Proofs Exprs_Model Exprs_Proofs Top_Model Top_Proofs Layout_Proofs Args_Spec Eval_Spec Eval_Proofs Call_Spec
  Run_Proofs Call_Proofs Exec_Spec Exec_Proofs.

Section Flow.
Variable powf : N -> N -> N.
Variable img : image.
Context {W : Type}.
Variable upcall : N -> N -> nat -> image -> ctx -> heap -> W -> option (upcall_result W).
Variable L : lsyms.
Variable hidden : N -> option hdatum.
Variable calls : ustr -> list given -> env W -> res vm_error (option cdatum) -> env W -> Prop.
Variable ups : list ustr.
Variable entry : point -> N -> Prop.
Hypothesis L_ok : tables_ok L.
Hypothesis L_ns : no_shadowing L.
Hypothesis L_ap : names_apart L.
Hypothesis functions_ok : functions_obey powf img upcall L hidden calls ups entry.
Hypothesis calls_local : forall k gs s r s' k', calls k gs s r s' -> is_shared L k' = false -> (r = Ok None -> forall t, ~ In (GRef k' t) gs) -> vals s k' = None -> vals s' k' = None.
Notation cs := (i_constants img).
Notation ty := (declared L).
Notation callable := (get_callable (ls_global L)).
Notation state ls := (holding L hidden cs ls None).
Notation has := (has img L ups entry).
Notation go := (go powf img upcall).
Notation stuck := (stuck powf img upcall).
Notation gfails := (gfails powf img upcall).
Notation tests := (tests powf callable (is_variable L) calls).
Notation pre_test := (pre_test powf callable (is_variable L) calls).
Notation post_test := (post_test powf callable (is_variable L) calls).
Notation iterate := (iterate (is_shared L)).
Implicit Types (h : mem W) (s : env W).

Definition arrives (x' : sst) (c : ctx) h s' (g : signal) : Prop :=
  exists c' h', go c h c' h' /\ place powf img x' g c' h' /\ state (snd x') c' h' s'.
Definition sim (x' : sst) (c : ctx) h s' (g : signal) : Prop :=
  stuck c h \/ match g with SigError e => gfails c h e (world s') | _ => arrives x' c h s' g end.
Definition simulates (body : block) s s' (g : signal) : Prop :=
  forall x x' c h, body x = COk x' -> ok x -> has x x' -> state (snd x) c h s -> c_pc c = s_pc x -> sim x' c h s' g.

Lemma sim_arrives x' c h s' g : (forall e, g <> SigError e) -> arrives x' c h s' g -> sim x' c h s' g.
Proof. intros NE A. right. destruct g; try exact A. destruct (NE e). reflexivity. Qed.
Lemma sim_after x' c h c1 h1 s' g : go c h c1 h1 -> sim x' c1 h1 s' g -> sim x' c h s' g.
Proof.
  intros G [K|K]; [left; eapply stuck_go; eassumption|right].
  destruct g; try (destruct K as (c' & h' & G' & E); exists c', h'; split; [eapply go_trans; eassumption|exact E]).
  eapply gfails_go; eassumption.
Qed.
Lemma sim_heap x' c h s' g : stuck c h -> sim x' c h s' g.
Proof. intros K. left. exact K. Qed.
Lemma sim_error x' c h s' e : gfails c h e (world s') -> sim x' c h s' (SigError e).
Proof. intros K. right. exact K. Qed.
Lemma sim_normal x' c h c1 h1 s' m : go c h c1 h1 -> c_pc c1 = s_pc x' -> state m c1 h1 s' -> ext m (snd x') -> ext (snd x') L ->
  sim x' c h s' SigNormal.
Proof.
  intros G P ST X X'. right. exists c1, h1. split; [exact G|]. split; [exact P|]. eapply state_ext; eassumption.
Qed.

(** From the end of a part of the code to the end of the whole. *)
Definition top_kept (a b : list (list (nat * linecol))) : Prop :=
  forall top rest, a = top :: rest -> exists top' rest', b = top' :: rest' /\ incl (map fst top) (map fst top').
Lemma top_kept_refl a : top_kept a a.
Proof. intros top rest ->. exists top, rest. split; [reflexivity|apply incl_refl]. Qed.
Lemma top_kept_eq a b : b = a -> top_kept a b.
Proof. intros ->. apply top_kept_refl. Qed.
Lemma top_kept_grows b e l l' : stack_grows b e l l' -> top_kept l l'.
Proof.
  intros G top rest ->. destruct G as (new & -> & _). exists (top ++ new), rest. split; [reflexivity|].
  rewrite map_app. apply incl_appl, incl_refl.
Qed.
Definition exits_kept (x x' : sst) : Prop := incl (map fst (t_exits (fst x))) (map fst (t_exits (fst x'))) /\
  incl (g_fixups (s_gen x)) (g_fixups (s_gen x')).
Lemma exits_kept_eq x x' : t_exits (fst x') = t_exits (fst x) -> g_fixups (s_gen x') = g_fixups (s_gen x) -> exits_kept x x'.
Proof. unfold exits_kept. intros -> ->. split; apply incl_refl. Qed.
Lemma exits_kept_later x x' : t_exits (fst x') = t_exits (fst x) -> later x x' -> exits_kept x x'.
Proof. unfold exits_kept. intros -> L1. split; [apply incl_refl|]. intros f. apply (la_fix _ _ L1). Qed.
Lemma exits_kept_grows b x x' : sgrows b x x' -> exits_kept x x'.
Proof.
  intros G. destruct (sg_exits _ _ _ G) as (new & E & _). unfold exits_kept. rewrite E, map_app. split; [apply incl_appl, incl_refl|].
  destruct (gr_fix _ _ _ (sg_gen _ _ _ G)) as (nf & EF & _). rewrite EF. apply incl_appr, incl_refl.
Qed.
Lemma exits_kept_trans x y z : exits_kept x y -> exits_kept y z -> exits_kept x z.
Proof. unfold exits_kept. intros [A1 A2] [B1 B2]. split; eapply incl_tran; eassumption. Qed.
Lemma sim_move' x x' c h s' g : sim x c h s' g -> g <> SigNormal -> ext (snd x) (snd x') -> ext (snd x') L ->
  (g = SigExitDo -> top_kept (t_do (fst x)) (t_do (fst x'))) ->
  (g = SigExitFor -> top_kept (t_for (fst x)) (t_for (fst x'))) -> exits_kept x x' -> sim x' c h s' g.
Proof.
  intros [K|K] N1 X X' D F EX; [left; exact K|right]. destruct g; [congruence| | | | | | |exact K];
    destruct K as (c' & h' & G & P & ST); exists c', h'; (split; [exact G|]); (split; [|eapply state_ext; eassumption]); cbn [place] in *.
  - destruct P as (top & rest & Q & I). destruct (D eq_refl _ _ Q) as (top' & rest' & Q' & J). eauto.
  - destruct P as (top & rest & Q & I). destruct (F eq_refl _ _ Q) as (top' & rest' & Q' & J). eauto.
  - apply EX, P.
  - destruct P as (name & E & I). exists name. split; [exact E|]. apply EX, I.
  - exact P.
  - exact P.
Qed.
Lemma sim_move x x' c h s' g : sim x c h s' g -> g <> SigNormal -> ext (snd x) (snd x') -> ext (snd x') L ->
  top_kept (t_do (fst x)) (t_do (fst x')) -> top_kept (t_for (fst x)) (t_for (fst x')) -> exits_kept x x' -> sim x' c h s' g.
Proof. intros. eapply sim_move'; eauto. Qed.
Lemma sim_grows b x x' c h s' g : sim x c h s' g -> g <> SigNormal -> sgrows b x x' -> ext (snd x') L -> sim x' c h s' g.
Proof.
  intros S0 N1 G X. eapply sim_move; [exact S0|exact N1|apply ext_grows, G|exact X| | |eapply exits_kept_grows; eassumption];
    eapply top_kept_grows; apply G.
Qed.

(** What a normal end leaves. *)
Lemma sim_ended x' c h s' : sim x' c h s' SigNormal ->
  stuck c h \/ exists c' h', go c h c' h' /\ c_pc c' = s_pc x' /\ state (snd x') c' h' s'.
Proof. intros K. exact K. Qed.

(** Marks of statements change nothing. *)
Lemma mark_code st a x p : code_at (mark_from st a x) p = code_at x p.
Proof. unfold mark_from. destruct (marks_start _ && _); reflexivity. Qed.
Lemma mark_pc st a x : s_pc (mark_from st a x) = s_pc x.
Proof. unfold mark_from. destruct (marks_start _ && _); reflexivity. Qed.
Lemma mark_snd st a x : snd (mark_from st a x) = snd x.
Proof. unfold mark_from. destruct (marks_start _ && _); reflexivity. Qed.
Lemma mark_do st a x : t_do (fst (mark_from st a x)) = t_do (fst x).
Proof. unfold mark_from. destruct (marks_start _ && _); reflexivity. Qed.
Lemma mark_for st a x : t_for (fst (mark_from st a x)) = t_for (fst x).
Proof. unfold mark_from. destruct (marks_start _ && _); reflexivity. Qed.
Lemma mark_exits st a x : t_exits (fst (mark_from st a x)) = t_exits (fst x).
Proof. unfold mark_from. destruct (marks_start _ && _); reflexivity. Qed.
Lemma mark_gen st a x : g_upcalls (s_gen (mark_from st a x)) = g_upcalls (s_gen x) /\ g_fixups (s_gen (mark_from st a x)) = g_fixups (s_gen x).
Proof. unfold mark_from. destruct (marks_start _ && _); auto. Qed.
Lemma mark_const st a x : g_constants (s_gen (mark_from st a x)) = g_constants (s_gen x).
Proof. unfold mark_from. destruct (marks_start _ && _); reflexivity. Qed.
Lemma mark_labels st a x : g_labels (s_gen (mark_from st a x)) = g_labels (s_gen x).
Proof. unfold mark_from. destruct (marks_start _ && _); reflexivity. Qed.
Lemma start_args a x : args_kept x (for_mark a x).
Proof.
  unfold for_mark. intros b md LT H. cbn [set_gen s_gen t_gen fst] in *. unfold mark_statement_start. cbn [with_code g_instrs].
  destruct (nth_error (g_instrs (s_gen x)) a) as [md0|] eqn:E; [|exists md; split; [exact H|reflexivity]].
  destruct (Nat.eq_dec b a) as [->|NE].
  - rewrite E in H. injection H as ->. eexists. split; [apply upd_nth_same; apply nth_error_Some; congruence|reflexivity].
  - exists md. split; [|reflexivity]. rewrite upd_nth_other by congruence. exact H.
Qed.
Lemma mark_args st a x : args_kept x (mark_from st a x).
Proof. unfold mark_from. destruct (marks_start _ && _); [apply start_args|apply args_kept_eq; reflexivity]. Qed.
Lemma later_mark st a x : later x (mark_from st a x).
Proof.
  apply later_same; [intros; rewrite mark_code; assumption|rewrite mark_snd; apply ext_refl|apply mark_const|apply mark_gen|intros f I; rewrite (proj2 (mark_gen st a x)); exact I|apply mark_labels|rewrite mark_pc; lia|apply mark_args].
Qed.
Lemma sim_mark st a x c h s' g : sim x c h s' g -> sim (mark_from st a x) c h s' g.
Proof.
  intros [K|K]; [left; exact K|right].
  destruct g; unfold arrives in *; cbn [place] in *; rewrite ?mark_pc, ?mark_snd, ?mark_do, ?mark_for, ?mark_exits, ?(proj2 (mark_gen st a x)); exact K.
Qed.

(** * Loops *)

Record loop (pre post : env W -> res vm_error bool -> env W -> Prop) (x yb z y : sst) : Prop := mkLoop {
  lp_enter : forall c h s res s1, state (snd x) c h s -> c_pc c = s_pc x -> pre s res s1 ->
    stuck c h \/
    match res with
    | Ok true => exists c' h', go c h c' h' /\ c_pc c' = s_pc yb /\ state (snd yb) c' h' s1
    | Ok false => exists c' h', go c h c' h' /\ c_pc c' = s_pc y /\ state (snd y) c' h' s1
    | Err e => gfails c h e (world s1)
    end;
  lp_leave : forall c h s res s1, state (snd z) c h s -> c_pc c = s_pc z -> post s res s1 ->
    stuck c h \/
    match res with
    | Ok b => exists c' h', go c h c' h' /\ c_pc c' = (if (b : bool) then s_pc x else s_pc y) /\ state (snd y) c' h' s1
    | Err e => gfails c h e (world s1)
    end;
  lp_has : has yb z;
  lp_ok : ok yb;
  lp_in : ext (snd x) (snd yb);
  lp_body : ext (snd yb) (snd z);
  lp_out : ext (snd z) (snd y);
  lp_do : t_do (fst y) = t_do (fst z);
  lp_for : t_for (fst y) = t_for (fst z);
  lp_exits : exits_kept z y;
  lp_pc : s_pc x <= s_pc yb
}.

Definition guard_ok (g : do_guard) : Prop :=
  match g with
  | GInfinite => True
  | GPreUntil e | GPreWhile e | GPostUntil e | GPostWhile e => in32 e
  end.

Lemma pre_inv s g r s1 : pre_test s g r s1 ->
  match g with
  | GPreUntil e => exists q, tests s e q s1 /\ r = opposite q
  | GPreWhile e => tests s e r s1
  | _ => r = Ok true /\ s1 = s
  end.
Proof. intros T. inversion T; subst; eauto. Qed.
Lemma post_inv s g r s1 : post_test s g r s1 ->
  match g with
  | GPostUntil e => exists q, tests s e q s1 /\ r = opposite q
  | GPostWhile e => tests s e r s1
  | _ => r = Ok true /\ s1 = s
  end.
Proof. intros T. inversion T; subst; eauto. Qed.

(** Running on without a test. *)
Lemma stay m c h s pc : state m c h s -> c_pc c = pc -> exists c' h', go c h c' h' /\ c_pc c' = pc /\ state m c' h' s.
Proof. intros ST P. exists c, h. split; [apply go_refl, ST|auto]. Qed.
Lemma jumped m m' c h s t pc : state m c h s -> fetched img (c_pc c) (IJump t) -> N.to_nat t = pc -> ext m m' -> ext m' L ->
  exists c' h', go c h c' h' /\ c_pc c' = pc /\ state m' c' h' s.
Proof.
  intros ST F <- X X'. exists (set_pc c (N.to_nat t)), h. split; [apply go_jump; [apply ST|apply ST|exact F]|]. split; [reflexivity|].
  eapply state_ext; [exact L_ns|exact X|exact X'|]. apply state_pc, ST.
Qed.
Lemma branched m m' c h s r t (b : bool) : state m c h s -> fetched img (c_pc c) (IJumpIfFalse r t) -> get_reg c r = b2n b ->
  ext m m' -> ext m' L ->
  exists c' h', go c h c' h' /\ c_pc c' = (if b then S (c_pc c) else N.to_nat t) /\ state m' c' h' s.
Proof.
  intros ST F E X X'. eexists _, h. split; [apply (go_branch_bool powf img upcall c h r t b); [apply ST|apply ST|exact F|exact E]|]. split; [reflexivity|].
  eapply state_ext; [exact L_ns|exact X|exact X'|]. apply state_pc, ST.
Qed.
Lemma andthen c h c1 h1 (Q : ctx -> mem W -> Prop) : go c h c1 h1 -> (exists c' h', go c1 h1 c' h' /\ Q c' h') ->
  exists c' h', go c h c' h' /\ Q c' h'.
Proof. intros G (c' & h' & G' & K). exists c', h'. split; [eapply go_trans; eassumption|exact K]. Qed.

Ltac hinner := eapply has_inner; [eassumption| |].

Lemma while_loop e body x y : bframe body -> iframe body -> compile_while e body x = COk y -> ok x -> has x y -> in32 e ->
  exists yb z, body yb = COk z /\ t_do (fst yb) = t_do (fst x) /\ t_for (fst yb) = t_for (fst x) /\
    loop (fun s => tests s e) (fun s r s1 => r = Ok true /\ s1 = s) x yb z y.
Proof.
  intros B F H O HS LO. unfold compile_while in H.
  apply bind_ok in H as ([r y1] & E & H). apply bind_ok in H as (z & E0 & H).
  apply bind_ok in H as (t1 & E1 & H). apply bind_ok in H as (t2 & E2 & H). apply COk_inj in H.
  apply target_eq in E1. apply target_eq in E2. set (pos := start_pos e) in *.
  destruct (ok_guard _ _ _ _ E O) as (O1 & G1 & L1). destruct (ok_emit INop pos y1 O1) as [O2 G2].
  destruct (ok_body _ _ _ B F E0 O2) as (O3 & G3 & L3). rewrite s_emit_pc in G3, L3.
  assert (PZ : s_pc y = S (s_pc z)) by (rewrite <- H, s_patch_pc, s_emit_pc; reflexivity). rewrite s_emit_pc in E2.
  assert (CN : code_at (s_emit (IJump t1) pos z) (s_pc y1) = Some INop).
  { rewrite code_emit_lt by lia. rewrite (code_grows _ _ _ _ G3) by lia. apply code_emit_at. }
  assert (LZ : later z y) by (rewrite <- H; eapply later_trans; [apply later_emit|apply later_patch; exact CN]).
  assert (LB : later (s_emit INop pos y1) y) by (eapply later_trans; [apply later_grows; rewrite s_emit_pc; exact G3|exact LZ]).
  assert (LY : later y1 y) by (eapply later_trans; [apply later_emit|exact LB]).
  assert (FB : fetched img (s_pc y1) (IJumpIfFalse r t2)).
  { eapply has_at; [exact HS| |discriminate|lia]. rewrite <- H. apply code_patch_at. rewrite s_emit_pc. lia. }
  assert (FJ : fetched img (s_pc z) (IJump t1)).
  { eapply has_at; [exact HS| |discriminate|lia]. rewrite <- H, code_patch_other by lia. apply code_emit_at. }
  exists (s_emit INop pos y1), z. split; [exact E0|].
  destruct (guard_gen _ _ _ _ E) as (D1 & D2 & _). split; [exact D1|]. split; [exact D2|]. constructor.
  - intros c h s res s1 ST PC T.
    destruct (guard_sim powf img upcall L hidden calls ups entry L_ok L_ns L_ap functions_ok calls_local _ _ _ _ _ _ _ _ _ E O ltac:(hinner; [exact LY|lia]) LO ST PC T) as [K|K]; [left; exact K|right].
    destruct res as [b|er]; [|exact K]. destruct K as (c1 & h1 & Ga & P1 & S1 & R1).
    assert (exists c' h', go c1 h1 c' h' /\ c_pc c' = (if b then S (c_pc c1) else N.to_nat t2) /\ state (snd (if b then s_emit INop pos y1 else y)) c' h' s1) as K.
    { eapply branched; [exact S1|rewrite P1; exact FB|exact R1| |]; destruct b; cbn [snd].
      - apply (la_syms _ _ (later_emit INop pos y1)). - apply (la_syms _ _ LY).
      - eapply ext_trans; [apply (la_syms _ _ LB)|apply HS]. - apply HS. }
    destruct b; (eapply andthen; [exact Ga|]); [rewrite P1 in K; rewrite s_emit_pc; exact K|rewrite E2 in K; rewrite PZ; exact K].
  - intros c h s res s1 ST PC T. destruct T as [-> ->]. right. eapply jumped; [exact ST|rewrite PC; exact FJ|exact E1|apply (la_syms _ _ LZ)|apply HS].
  - hinner; [exact LZ|rewrite s_emit_pc; lia].
  - exact O2.
  - eapply ext_trans; [apply ext_grows, G1|apply ext_refl].
  - apply ext_grows, G3.
  - apply (la_syms _ _ LZ).
  - rewrite <- H. reflexivity.
  - rewrite <- H. reflexivity.
  - apply exits_kept_eq; rewrite <- H; reflexivity.
  - rewrite s_emit_pc. lia.
Qed.

Lemma do_loop g body x y : bframe body -> iframe body -> do_inner g body x = COk y -> ok x -> has x y -> guard_ok g ->
  exists yb z, body yb = COk z /\ t_do (fst yb) = t_do (fst x) /\ t_for (fst yb) = t_for (fst x) /\
    loop (fun s => pre_test s g) (fun s => post_test s g) x yb z y.
Proof.
  intros B F H O HS LO. destruct g as [|e|e|e|e]; cbn [do_inner guard_ok] in *.
  - (* no test *)
    apply bind_ok in H as (z & E0 & H). apply bind_ok in H as (t1 & E1 & H). apply COk_inj in H. apply target_eq in E1.
    destruct (ok_body _ _ _ B F E0 O) as (O3 & G3 & L3).
    assert (PZ : s_pc y = S (s_pc z)) by (rewrite <- H, s_emit_pc; reflexivity).
    assert (LZ : later z y) by (rewrite <- H; apply later_emit).
    assert (FJ : fetched img (s_pc z) (IJump t1)).
    { eapply has_at; [exact HS| |discriminate|lia]. rewrite <- H. apply code_emit_at. }
    exists x, z. split; [exact E0|]. split; [reflexivity|]. split; [reflexivity|]. constructor.
    + intros c h s res s1 ST PC T. apply pre_inv in T as [-> ->]. right. apply stay; assumption.
    + intros c h s res s1 ST PC T. apply post_inv in T as [-> ->]. right. eapply jumped; [exact ST|rewrite PC; exact FJ|exact E1|apply (la_syms _ _ LZ)|apply HS].
    + hinner; [exact LZ|lia].
    + exact O.
    + apply ext_refl.
    + apply ext_grows, G3.
    + apply (la_syms _ _ LZ).
    + rewrite <- H. reflexivity.
    + rewrite <- H. reflexivity.
    + apply exits_kept_eq; rewrite <- H; reflexivity.
    + lia.
  - (* until, before *)
    apply bind_ok in H as ([r y1] & E & H). apply bind_ok in H as (tb & EB & H). apply bind_ok in H as (z & E0 & H).
    apply bind_ok in H as (t1 & E1 & H). apply bind_ok in H as (t2 & E2 & H). apply COk_inj in H.
    apply target_eq in E1. apply target_eq in E2. apply target_eq in EB. set (pos := start_pos e) in *.
    rewrite !s_emit_pc in *.
    destruct (ok_guard _ _ _ _ E O) as (O1 & G1 & L1). destruct (ok_emit INop pos y1 O1) as [O2 G2].
    destruct (ok_emit INop pos _ O2) as [O2' G2'].
    set (y2 := s_emit INop pos (s_emit INop pos y1)) in *.
    assert (P2 : s_pc y2 = S (S (s_pc y1))) by (unfold y2; rewrite !s_emit_pc; reflexivity).
    set (yb := s_patch (s_pc y1) (IJumpIfFalse r tb) y2) in *.
    assert (PB : s_pc yb = S (S (s_pc y1))) by (unfold yb; rewrite s_patch_pc; exact P2).
    assert (OB : ok yb).
    { unfold yb. apply ok_patch; [exact O2'|]. change (notin (s_pc y1) y1). apply notin_now. exact O1. }
    destruct (ok_body _ _ _ B F E0 OB) as (O3 & G3 & L3). rewrite PB in G3, L3.
    assert (PZ : s_pc y = S (s_pc z)) by (rewrite <- H, s_patch_pc, s_emit_pc; reflexivity).
    assert (C1 : code_at y2 (s_pc y1) = Some INop).
    { unfold y2. rewrite code_emit_lt by (rewrite s_emit_pc; lia). apply code_emit_at. }
    assert (C2 : code_at yb (S (s_pc y1)) = Some INop).
    { unfold yb. rewrite code_patch_other by lia. unfold y2. rewrite <- (s_emit_pc INop pos y1). apply code_emit_at. }
    assert (CN : code_at (s_emit (IJump t1) pos z) (S (s_pc y1)) = Some INop).
    { rewrite code_emit_lt by lia. rewrite (code_grows _ _ _ _ G3) by lia. exact C2. }
    assert (LZ : later z y) by (rewrite <- H; eapply later_trans; [apply later_emit|apply later_patch; exact CN]).
    assert (LB : later yb y) by (eapply later_trans; [apply later_grows; rewrite PB; exact G3|exact LZ]).
    assert (LY : later y1 y).
    { eapply later_trans; [apply later_emit|]. eapply later_trans; [apply later_emit|]. eapply later_trans; [apply later_patch; exact C1|exact LB]. }
    assert (FB : fetched img (s_pc y1) (IJumpIfFalse r tb)).
    { eapply has_at; [exact HS| |discriminate|lia]. apply (la_code _ _ LB); [|discriminate]. apply code_patch_at. lia. }
    assert (FE : fetched img (S (s_pc y1)) (IJump t2)).
    { eapply has_at; [exact HS| |discriminate|lia]. rewrite <- H. apply code_patch_at. rewrite s_emit_pc. lia. }
    assert (FJ : fetched img (s_pc z) (IJump t1)).
    { eapply has_at; [exact HS| |discriminate|lia]. rewrite <- H, code_patch_other by lia. apply code_emit_at. }
    exists yb, z. split; [exact E0|].
    destruct (guard_gen _ _ _ _ E) as (D1 & D2 & _). split; [exact D1|]. split; [exact D2|]. constructor.
    + intros c h s res s1 ST PC T0. apply pre_inv in T0 as (q & T & ->).
      destruct (guard_sim powf img upcall L hidden calls ups entry L_ok L_ns L_ap functions_ok calls_local _ _ _ _ _ _ _ _ _ E O ltac:(hinner; [exact LY|lia]) LO ST PC T) as [K|K]; [left; exact K|right].
      destruct q as [b|er]; [|exact K]. destruct K as (c1 & h1 & Ga & P1 & S1 & R1).
      assert (exists c' h', go c1 h1 c' h' /\ c_pc c' = (if b then S (c_pc c1) else N.to_nat tb) /\ state (snd yb) c' h' s1) as K.
      { eapply branched; [exact S1|rewrite P1; exact FB|exact R1|apply ext_refl|]. eapply ext_trans; [apply (la_syms _ _ LB)|apply HS]. }
      destruct b; cbn [negb opposite].
      * destruct K as (c2 & h2 & Gb & P2' & S2). eapply andthen; [eapply go_trans; [exact Ga|exact Gb]|].
        rewrite PZ, <- E2. eapply jumped; [exact S2|rewrite P2', P1; exact FE|reflexivity|apply (la_syms _ _ LB)|apply HS].
      * eapply andthen; [exact Ga|]. rewrite PB, <- EB. exact K.
    + intros c h s res s1 ST PC T. apply post_inv in T as [-> ->]. right. eapply jumped; [exact ST|rewrite PC; exact FJ|exact E1|apply (la_syms _ _ LZ)|apply HS].
    + hinner; [exact LZ|lia].
    + exact OB.
    + apply ext_grows, G1.
    + apply ext_grows, G3.
    + apply (la_syms _ _ LZ).
    + rewrite <- H. reflexivity.
    + rewrite <- H. reflexivity.
    + apply exits_kept_eq; rewrite <- H; reflexivity.
    + lia.
  - destruct (while_loop _ _ _ _ B F H O HS LO) as (yb & z & E0 & D1 & D2 & [A1 A2 A3 A4 A5 A6 A7 A8 A9 A10 A11]).
    exists yb, z. split; [exact E0|]. split; [exact D1|]. split; [exact D2|]. constructor; try assumption.
    + intros c h s res s1 ST PC T. apply pre_inv in T. eapply A1; eassumption.
    + intros c h s res s1 ST PC T. apply post_inv in T as [-> ->]. exact (A2 _ _ _ (Ok true) _ ST PC (conj eq_refl eq_refl)).
  - (* until, after *)
    apply bind_ok in H as (z & E0 & H). apply bind_ok in H as ([r y1] & E & H).
    apply bind_ok in H as (t1 & E1 & H). apply COk_inj in H. apply target_eq in E1. set (pos := start_pos e) in *.
    destruct (ok_body _ _ _ B F E0 O) as (O3 & G3 & L3). destruct (ok_guard _ _ _ _ E O3) as (O1 & G1 & L1).
    assert (PZ : s_pc y = S (s_pc y1)) by (rewrite <- H, s_emit_pc; reflexivity).
    assert (LY : later y1 y) by (rewrite <- H; apply later_emit).
    assert (LZ : later z y) by (eapply later_trans; [apply later_grows; exact G1|exact LY]).
    assert (FJ : fetched img (s_pc y1) (IJumpIfFalse r t1)).
    { eapply has_at; [exact HS| |discriminate|lia]. rewrite <- H. apply code_emit_at. }
    destruct (guard_gen _ _ _ _ E) as (D1 & D2 & _).
    exists x, z. split; [exact E0|]. split; [reflexivity|]. split; [reflexivity|]. constructor.
    + intros c h s res s1 ST PC T. apply pre_inv in T as [-> ->]. right. apply stay; assumption.
    + intros c h s res s1 ST PC T0. apply post_inv in T0 as (q & T & ->).
      destruct (guard_sim powf img upcall L hidden calls ups entry L_ok L_ns L_ap functions_ok calls_local _ _ _ _ _ _ _ _ _ E O3 ltac:(hinner; [exact LY|lia]) LO ST PC T) as [K|K]; [left; exact K|right].
      destruct q as [b|er]; [|exact K]. destruct K as (c1 & h1 & Ga & P1 & S1 & R1).
      eapply andthen; [exact Ga|].
      assert (exists c' h', go c1 h1 c' h' /\ c_pc c' = (if b then S (c_pc c1) else N.to_nat t1) /\ state (snd y) c' h' s1) as K.
      { eapply branched; [exact S1|rewrite P1; exact FJ|exact R1|apply (la_syms _ _ LY)|apply HS]. }
      destruct b; cbn [negb opposite]; [rewrite PZ, <- P1|rewrite <- E1]; exact K.
    + hinner; [exact LZ|lia].
    + exact O.
    + apply ext_refl.
    + apply ext_grows, G3.
    + apply (la_syms _ _ LZ).
    + rewrite <- H. exact D1.
    + rewrite <- H. exact D2.
    + rewrite <- H. eapply exits_kept_trans; [eapply exits_kept_grows; exact G1|apply exits_kept_eq; reflexivity].
    + lia.
  - (* while, after *)
    apply bind_ok in H as (z & E0 & H). apply bind_ok in H as ([r y1] & E & H).
    apply bind_ok in H as (t1 & E1 & H). apply bind_ok in H as (t2 & E2 & H). apply COk_inj in H.
    apply target_eq in E1. apply target_eq in E2. set (pos := start_pos e) in *.
    destruct (ok_body _ _ _ B F E0 O) as (O3 & G3 & L3). destruct (ok_guard _ _ _ _ E O3) as (O1 & G1 & L1).
    rewrite !s_emit_pc in *.
    assert (PZ : s_pc y = S (S (s_pc y1))) by (rewrite <- H, s_patch_pc, !s_emit_pc; reflexivity).
    set (y2 := s_emit (IJump t1) pos (s_emit INop pos y1)) in *.
    assert (CN : code_at y2 (s_pc y1) = Some INop).
    { unfold y2. rewrite code_emit_lt by (rewrite s_emit_pc; lia). apply code_emit_at. }
    assert (LY : later y1 y).
    { rewrite <- H. eapply later_trans; [apply later_emit|]. eapply later_trans; [apply later_emit|]. apply later_patch. exact CN. }
    assert (LZ : later z y) by (eapply later_trans; [apply later_grows; exact G1|exact LY]).
    assert (P2 : s_pc y2 = S (S (s_pc y1))) by (unfold y2; rewrite !s_emit_pc; reflexivity).
    assert (FB : fetched img (s_pc y1) (IJumpIfFalse r t2)).
    { eapply has_at; [exact HS| |discriminate|lia]. rewrite <- H. apply code_patch_at. lia. }
    assert (FJ : fetched img (S (s_pc y1)) (IJump t1)).
    { eapply has_at; [exact HS| |discriminate|lia]. rewrite <- H, code_patch_other by lia. unfold y2.
      rewrite <- (s_emit_pc INop pos y1). apply code_emit_at. }
    destruct (guard_gen _ _ _ _ E) as (D1 & D2 & _).
    exists x, z. split; [exact E0|]. split; [reflexivity|]. split; [reflexivity|]. constructor.
    + intros c h s res s1 ST PC T. apply pre_inv in T as [-> ->]. right. apply stay; assumption.
    + intros c h s res s1 ST PC T. apply post_inv in T.
      destruct (guard_sim powf img upcall L hidden calls ups entry L_ok L_ns L_ap functions_ok calls_local _ _ _ _ _ _ _ _ _ E O3 ltac:(hinner; [exact LY|lia]) LO ST PC T) as [K|K]; [left; exact K|right].
      destruct res as [b|er]; [|exact K]. destruct K as (c1 & h1 & Ga & P1 & S1 & R1).
      assert (exists c' h', go c1 h1 c' h' /\ c_pc c' = (if b then S (c_pc c1) else N.to_nat t2) /\ state (snd y) c' h' s1) as K.
      { eapply branched; [exact S1|rewrite P1; exact FB|exact R1|apply (la_syms _ _ LY)|apply HS]. }
      destruct b; [|eapply andthen; [exact Ga|]; rewrite PZ, <- E2; exact K].
      destruct K as (c2 & h2 & Gb & P2' & S2). eapply andthen; [eapply go_trans; [exact Ga|exact Gb]|].
      eapply jumped; [exact S2|rewrite P2', P1; exact FJ|exact E1|apply ext_refl|apply HS].
    + hinner; [exact LZ|lia].
    + exact O.
    + apply ext_refl.
    + apply ext_grows, G3.
    + apply (la_syms _ _ LZ).
    + rewrite <- H. exact D1.
    + rewrite <- H. exact D2.
    + rewrite <- H. eapply exits_kept_trans; [eapply exits_kept_grows; exact G1|apply exits_kept_eq; reflexivity].
    + lia.
Qed.

Lemma jumps_const l t : forall x x', patch_jumps l t x = COk x' -> g_constants (s_gen x') = g_constants (s_gen x) /\
  g_upcalls (s_gen x') = g_upcalls (s_gen x) /\ g_fixups (s_gen x') = g_fixups (s_gen x) /\ g_labels (s_gen x') = g_labels (s_gen x) /\
  g_instrs (s_gen x') = g_instrs (s_gen x).
Proof.
  induction l as [|[a p] l IH]; intros x x' H; cbn [patch_jumps] in H; [apply COk_inj in H; subst; auto|].
  apply bind_ok in H as (t1 & _ & H). destruct (IH _ _ H) as (A & B & C & D & E). rewrite A, B, C, D, E. auto.
Qed.
Lemma later_jumps l t x x' : patch_jumps l t x = COk x' -> (forall p i, code_at x p = Some i -> i <> INop -> code_at x' p = Some i) ->
  snd x' = snd x -> s_pc x' = s_pc x -> later x x'.
Proof.
  intros H C S0 P. destruct (jumps_const _ _ _ _ H) as (A1 & A2 & A3 & A4 & A5).
  apply later_same; [exact C|rewrite S0; apply ext_refl|exact A1|exact A2|intros f I; rewrite A3; exact I|exact A4|rewrite P; lia|apply args_kept_eq, A5].
Qed.

(** DO: its parts. *)
Lemma do_parts g body x x' : bframe body -> iframe body -> compile_do g body x = COk x' -> ok x -> has x x' -> guard_ok g ->
  exists yb z y, body yb = COk z /\
    loop (fun s => pre_test s g) (fun s => post_test s g) x yb z y /\
    s_pc x' = s_pc y /\ snd x' = snd y /\ t_for (fst x') = t_for (fst y) /\ exits_kept y x' /\
    exists exits rest, t_do (fst z) = exits :: rest /\
      forall a, In a (map fst exits) -> exists t, fetched img a (IJump t) /\ N.to_nat t = s_pc x'.
Proof.
  intros B F H O HS LO. rewrite compile_do_eq in H. apply bind_ok in H as (y & H1 & H2).
  pose proof (ok_do_push _ O) as O1. pose proof (do_inner_grows _ _ _ _ B H1 (ok_wf _ O1)) as G.
  destruct (do_end_ok x y x' G (ok_do_inner _ _ _ _ B F H1 O1) H2) as (ex & T & _ & P & S0 & D & Fo & EX & _ & J & C & _).
  assert (LY : later y x').
  { unfold do_end in H2. rewrite T in H2. destruct (later_jumps _ _ (set_do (t_do (fst x)) (fst y), snd y) _ H2 C S0 P). constructor; assumption. }
  assert (HY : has (do_push x) y) by (eapply has_inner; [exact HS|exact LY|apply le_n]).
  destruct (do_loop _ _ _ _ B F H1 O1 HY LO) as (yb & z & E & D1 & F1 & LP).
  exists yb, z, y. split; [exact E|]. split.
  { destruct LP as [A1 A2 A3 A4 A5 A6 A7 A8 A9 A11 A10]. constructor; assumption. }
  split; [exact P|]. split; [exact S0|]. split; [exact Fo|]. split; [apply exits_kept_later; [exact EX|exact LY]|].
  exists ex, (t_do (fst x)). split; [rewrite <- (lp_do _ _ _ _ _ _ LP); exact T|].
  intros a I. destruct (J a I) as (t & Ct & Et). exists t. split; [|rewrite P; exact Et].
  eapply has_at; [exact HS|exact Ct|discriminate|].
  pose proof (sg_do _ _ _ G) as (new & Q & WI). cbn [do_push fst set_do t_do] in Q. rewrite T in Q. injection Q as ->.
  unfold Top_Proofs.within in WI. rewrite Forall_forall in WI. apply in_map_iff in I as (q & <- & I). cbn [app] in I. apply (WI q I).
Qed.

(** One round of a loop whose parts are known. *)
Section Round.
Variables (pre post : env W -> res vm_error bool -> env W -> Prop) (x yb z y : sst) (body : block).
Hypothesis LP : loop pre post x yb z y.
Hypothesis E : body yb = COk z.
Hypothesis YL : ext (snd y) L.
Variables (c : ctx) (h : mem W) (s : env W).
Hypothesis ST : state (snd x) c h s.
Hypothesis PC : c_pc c = s_pc x.

Lemma round_done s1 : pre s (Ok false) s1 ->
  stuck c h \/ exists c' h', go c h c' h' /\ c_pc c' = s_pc y /\ state (snd y) c' h' s1.
Proof. intros T. exact (lp_enter _ _ _ _ _ _ LP _ _ _ _ _ ST PC T). Qed.
Lemma round_fails e s1 : pre s (Err e) s1 -> stuck c h \/ gfails c h e (world s1).
Proof. intros T. exact (lp_enter _ _ _ _ _ _ LP _ _ _ _ _ ST PC T). Qed.
Lemma round_body s1 s' g : pre s (Ok true) s1 -> simulates body s1 s' g -> sim z c h s' g.
Proof.
  intros T SB. destruct (lp_enter _ _ _ _ _ _ LP _ _ _ _ _ ST PC T) as [K|(c1 & h1 & G & P & S1)]; [apply sim_heap; exact K|].
  eapply sim_after; [exact G|]. eapply SB; [exact E|apply (lp_ok _ _ _ _ _ _ LP)|apply (lp_has _ _ _ _ _ _ LP)|exact S1|exact P].
Qed.
Lemma round_leave s1 s' res s2 : pre s (Ok true) s1 -> simulates body s1 s' SigNormal -> post s' res s2 ->
  stuck c h \/
  match res with
  | Ok b => exists c' h', go c h c' h' /\ c_pc c' = (if (b : bool) then s_pc x else s_pc y) /\ state (snd y) c' h' s2
  | Err e => gfails c h e (world s2)
  end.
Proof.
  intros T SB PT. pose proof (round_body _ _ _ T SB) as B.
  destruct (sim_ended _ _ _ _ B) as [K|(c1 & h1 & G & P & S1)]; [left; exact K|].
  destruct (lp_leave _ _ _ _ _ _ LP _ _ _ _ _ S1 P PT) as [K|K]; [left; eapply stuck_go; eassumption|right].
  destruct res as [b|e]; [eapply andthen; eassumption|eapply gfails_go; eassumption].
Qed.
Lemma round_again s1 s' s2 : pre s (Ok true) s1 -> simulates body s1 s' SigNormal -> post s' (Ok true) s2 ->
  stuck c h \/ exists c' h', go c h c' h' /\ c_pc c' = s_pc x /\ state (snd x) c' h' (iterate s s2).
Proof.
  intros T SB PT. destruct (round_leave _ _ _ _ T SB PT) as [K|(c1 & h1 & G & P & S1)]; [left; exact K|right].
  exists c1, h1. split; [exact G|]. split; [exact P|].
  eapply state_back; [exact L_ns| |exact YL|exact S1|apply ST].
  eapply ext_trans; [apply (lp_in _ _ _ _ _ _ LP)|]. eapply ext_trans; [apply (lp_body _ _ _ _ _ _ LP)|apply (lp_out _ _ _ _ _ _ LP)].
Qed.
End Round.

(** FOR, after the first assignment: its parts. *)
Lemma for_parts v ip end_ next body x x' : bframe body -> iframe body -> for_tail v ip end_ next body x = COk x' ->
  ok x -> has x x' -> in32 end_ ->
  exists yb z w, body yb = COk z /\ ok yb /\ has yb z /\ ext (snd x) (snd yb) /\ ext (snd yb) (snd z) /\
    (forall c h s res s1, state (snd x) c h s -> c_pc c = s_pc x -> tests s end_ res s1 ->
       stuck c h \/
       match res with
       | Ok true => exists c' h', go c h c' h' /\ c_pc c' = s_pc yb /\ state (snd yb) c' h' s1
       | Ok false => exists c' h', go c h c' h' /\ c_pc c' = s_pc x' /\ state (snd x') c' h' s1
       | Err e => gfails c h e (world s1)
       end) /\
    s_assignment v ip next z = COk w /\ ok z /\ has z w /\ ext (snd z) (snd w) /\
    (exists t, fetched img (s_pc w) (IJump t) /\ N.to_nat t = s_pc x) /\
    snd x' = snd w /\ t_do (fst x') = t_do (fst z) /\ exits_kept z x' /\
    exists exits rest, t_for (fst z) = exits :: rest /\
      forall a, In a (map fst exits) -> exists t, fetched img a (IJump t) /\ N.to_nat t = s_pc x'.
Proof.
  intros B F H O HS LO.
  destruct (for_tail_body _ _ _ _ _ _ _ B F H O) as (r & y & z & w & t1 & t2 & E & E0 & E1 & T1 & T2 & K). cbv zeta in K.
  set (pos := start_pos end_) in *. set (yb := for_push (for_mark (s_pc x) (s_emit INop pos y))) in *.
  set (v2 := s_patch (s_pc y) (IJumpIfFalse r t2) (s_emit (IJump t1) pos w)) in *.
  destruct K as (H2 & OY & OZ & OW & OV & PV & L1 & L2 & L3 & G1 & G2 & G3 & G4).
  destruct (for_end_ok _ _ _ _ G4 OV H2) as (ex & T & _ & P & S0 & _ & Do & EX & _ & J & C & _).
  assert (OB : ok yb) by (apply ok_for_push, ok_for_mark, (ok_emit INop pos y OY)).
  assert (PB : s_pc yb = S (s_pc y)) by apply s_emit_pc.
  assert (LV : later v2 x').
  { unfold for_end in H2. rewrite T in H2. destruct (later_jumps _ _ (set_for (t_for (fst (for_mark (s_pc x) (s_emit INop pos y)))) (fst v2), snd v2) _ H2 C S0 P). constructor; assumption. }
  assert (CN : code_at (s_emit (IJump t1) pos w) (s_pc y) = Some INop).
  { rewrite code_emit_lt by lia. rewrite (code_grows _ _ _ _ G3) by lia. rewrite (code_grows _ _ _ _ G2) by lia. apply code_emit_at. }
  assert (LW : later w x').
  { eapply later_trans; [apply later_emit|]. eapply later_trans; [apply later_patch; exact CN|]. exact LV. }
  assert (LZ : later z x') by (eapply later_trans; [apply later_grows; exact G3|exact LW]).
  assert (LB : later yb x') by (eapply later_trans; [apply later_grows; rewrite PB; exact G2|exact LZ]).
  assert (LY : later y x').
  { eapply later_trans; [|exact LB]. apply later_same; [|apply ext_refl|reflexivity|reflexivity|auto|reflexivity|lia|].
    2: { intros a0 md LT0 H0. destruct (la_args _ _ (later_emit INop pos y) a0 md LT0 H0) as (md1 & H3 & E3).
         destruct (start_args (s_pc x) (s_emit INop pos y) a0 md1) as (md2 & H4 & E4); [rewrite s_emit_pc; lia|exact H3|].
         exists md2. split; [exact H4|congruence]. }
    intros p i Cp _. change (code_at (s_emit INop pos y) p = Some i). rewrite code_emit_lt; [exact Cp|eapply code_lt, Cp]. }
  assert (FB : fetched img (s_pc y) (IJumpIfFalse r t2)).
  { eapply has_at; [exact HS| |discriminate|lia]. apply (la_code _ _ LV); [|discriminate]. apply code_patch_at. rewrite s_emit_pc. lia. }
  assert (FJ : fetched img (s_pc w) (IJump t1)).
  { eapply has_at; [exact HS| |discriminate|lia]. apply (la_code _ _ LV); [|discriminate].
    unfold v2. rewrite code_patch_other by lia. apply code_emit_at. }
  exists yb, z, w. split; [exact E0|]. split; [exact OB|]. split; [hinner; [exact LZ|lia]|].
  split; [apply ext_grows, G1|]. split; [apply ext_grows, G2|]. split; [|].
  { intros c h s res s1 ST PC Te.
    destruct (guard_sim powf img upcall L hidden calls ups entry L_ok L_ns L_ap functions_ok calls_local _ _ _ _ _ _ _ _ _ E O ltac:(hinner; [exact LY|lia]) LO ST PC Te) as [K|K]; [left; exact K|right].
    destruct res as [b|er]; [|exact K]. destruct K as (c1 & h1 & Ga & P1 & S1 & R1).
    assert (exists c' h', go c1 h1 c' h' /\ c_pc c' = (if b then S (c_pc c1) else N.to_nat t2) /\ state (snd (if b then yb else x')) c' h' s1) as K.
    { eapply branched; [exact S1|rewrite P1; exact FB|exact R1| |]; destruct b.
      - apply ext_refl. - apply (la_syms _ _ LY).
      - eapply ext_trans; [apply (la_syms _ _ LB)|apply HS]. - apply HS. }
    destruct b; (eapply andthen; [exact Ga|]); [rewrite P1 in K; rewrite PB; exact K|].
    rewrite P, PV, <- T2. exact K. }
  split; [exact E1|]. split; [exact OZ|]. split; [hinner; [exact LW|lia]|]. split; [apply ext_grows, G3|].
  split; [eauto|]. split; [exact S0|]. destruct (assignment_gen _ _ _ _ _ E1) as (A1 & A2 & _).
  split; [rewrite Do; exact A1|]. split; [eapply exits_kept_trans; [eapply exits_kept_grows; exact G3|apply exits_kept_later; [rewrite EX; reflexivity|exact LW]]|].
  exists ex, (t_for (fst x)). split.
  { rewrite <- A2. change (t_for (fst w)) with (t_for (fst v2)). rewrite T. destruct (guard_gen _ _ _ _ E) as (_ & A3 & _).
    change (t_for (fst (for_mark (s_pc x) (s_emit INop pos y)))) with (t_for (fst y)). rewrite A3. reflexivity. }
  intros a I. destruct (J a I) as (t & Ct & Et). exists t. split; [|rewrite P; exact Et].
  eapply has_at; [exact HS|exact Ct|discriminate|].
  pose proof (sg_for _ _ _ G4) as (new & Q & WI). rewrite T in Q. injection Q as ->.
  unfold Top_Proofs.within in WI. rewrite Forall_forall in WI. apply in_map_iff in I as (q & <- & I). cbn [app] in I.
  pose proof (WI q I). lia.
Qed.

(** * IF *)

Definition nops (x : sst) (l : list nat) : Prop := forall a, In a l -> code_at x a = Some INop.
Definition framed (bs : list (expr * block)) : Prop := Forall (fun p => bframe (snd p) /\ iframe (snd p)) bs.
(** [X] is [x'] with the placeholders filled in. *)
Record filled (x' X : sst) : Prop := mkFilled {
  fi_later : later x' X;
  fi_pc : s_pc X = s_pc x';
  fi_syms : snd X = snd x';
  fi_do : t_do (fst X) = t_do (fst x');
  fi_for : t_for (fst X) = t_for (fst x');
  fi_exits : t_exits (fst X) = t_exits (fst x')
}.

Lemma framed_b bs : framed bs -> Forall (fun p => bframe (snd p)) bs.
Proof. intros H. eapply Forall_impl; [|exact H]. intros p K. apply K. Qed.

Lemma branches_ext bs ends x ends' x' b x0 : framed bs -> compile_branches bs ends x = COk (ends', x') ->
  Top_Proofs.ext b x0 x -> sgrows b x0 x'.
Proof.
  intros B H K. enough (forall b, Top_Proofs.ext b x0 x -> Forall (le b) (@nil nat) -> sgrows b x0 x') as Q by (apply Q; [exact K|constructor]).
  clear b K. intros b K _. revert ends x ends' x' H K. induction B as [|[e body] bs [B F] BS IH]; intros; cbn [compile_branches] in H.
  - apply COk_inj, pair_inj in H as [_ <-]. apply K.
  - cbn [snd] in B. inv_ok. pose proof (proj2 (proj2 K)) as Lb. sforward. destruct bs as [|p bs]; inv_ok; (eapply IH; [exact H|]); send.
Qed.

Lemma branches_nops bs : framed bs -> forall ends x ends' x', compile_branches bs ends x = COk (ends', x') -> ok x ->
  nops x ends -> nops x' ends' /\ incl ends ends' /\ (forall a, In a ends' -> In a ends \/ s_pc x <= a).
Proof.
  induction 1 as [|[e body] bs [B F] BS IH]; intros ends x ends' x' H O M; cbn [compile_branches] in H.
  - apply COk_inj, pair_inj in H as [<- <-]. split; [exact M|]. split; [apply incl_refl|]. auto.
  - cbn [snd] in B, F. apply bind_ok in H as ([r y] & E & H). apply bind_ok in H as (z & E0 & H).
    destruct (ok_guard _ _ _ _ E O) as (O1 & G1 & L1). set (pos := start_pos e) in *.
    destruct (ok_emit INop pos y O1) as [O2 G2].
    destruct (ok_body _ _ _ B F E0 O2) as (O3 & G3 & L3). rewrite s_emit_pc in *.
    assert (M3 : nops z ends).
    { intros a I. pose proof (code_lt _ _ _ (M a I)). rewrite (code_grows _ _ _ _ G3), code_emit_lt, (code_grows _ _ _ _ G1) by lia. apply M, I. }
    assert (N3 : notin (s_pc y) z).
    { eapply notin_step; [exact G3|lia|]. apply notin_emit, notin_now, O1. }
    assert (MA : forall a, In a ends -> a < s_pc y) by (intros a I; pose proof (code_lt _ _ _ (M a I)); lia).
    destruct bs as [|p bs].
    + apply bind_ok in H as (t & T & H). apply IH in H.
      * destruct H as (A1 & A2 & A3). split; [exact A1|]. split; [exact A2|]. rewrite s_patch_pc in A3.
        intros a I. destruct (A3 a I); [auto|right; lia].
      * apply ok_patch; assumption.
      * intros a I. rewrite code_patch_other; [apply M3, I|]. pose proof (MA a I). lia.
    + apply bind_ok in H as (t & T & H). destruct (ok_emit INop pos z O3) as [O4 G4]. apply IH in H.
      * destruct H as (A1 & A2 & A3). split; [exact A1|]. split.
        -- intros a I. apply A2, in_app_iff. auto.
        -- rewrite s_patch_pc, s_emit_pc in A3. intros a I. destruct (A3 a I) as [J|J]; [|right; lia].
           apply in_app_iff in J as [J|[<-|[]]]; [auto|right; lia].
      * apply ok_patch; [exact O4|]. exact N3.
      * intros a I. apply in_app_iff in I as [I|[<-|[]]].
        -- pose proof (MA a I). rewrite code_patch_other, code_emit_lt by lia. apply M3, I.
        -- rewrite code_patch_other by lia. apply code_emit_at.
Qed.

(** One branch. *)
Lemma branch_parts e body rest ends x ends' x' X : bframe body -> iframe body -> framed rest ->
  compile_branches ((e, body) :: rest) ends x = COk (ends', x') -> ok x -> marks x ends -> nops x ends ->
  filled x' X -> has x X -> (forall a, In a ends' -> exists t, fetched img a (IJump t) /\ N.to_nat t = s_pc X) ->
  in32 e ->
  exists yb z ends1 x1, body yb = COk z /\ ok yb /\ has yb z /\
    (forall c h s res s1, state (snd x) c h s -> c_pc c = s_pc x -> tests s e res s1 ->
       stuck c h \/
       match res with
       | Ok true => exists c' h', go c h c' h' /\ c_pc c' = s_pc yb /\ state (snd yb) c' h' s1
       | Ok false => exists c' h', go c h c' h' /\ c_pc c' = s_pc x1 /\ state (snd x1) c' h' s1
       | Err er => gfails c h er (world s1)
       end) /\
    (forall c h s, state (snd z) c h s -> c_pc c = s_pc z ->
       exists c' h', go c h c' h' /\ c_pc c' = s_pc X /\ state (snd X) c' h' s) /\
    sgrows 0 z x' /\
    compile_branches rest ends1 x1 = COk (ends', x') /\ ok x1 /\ marks x1 ends1 /\ nops x1 ends1 /\ has x1 X.
Proof.
  intros B F BS H O M NO FI HS J LO. assert (H0 := H). cbn [compile_branches] in H.
  apply bind_ok in H as ([r y] & E & H). apply bind_ok in H as (z & E0 & H). set (pos := start_pos e) in *.
  destruct (ok_guard _ _ _ _ E O) as (O1 & G1 & L1).
  destruct (ok_emit INop pos y O1) as [O2 G2].
  destruct (ok_body _ _ _ B F E0 O2) as (O3 & G3 & L3). rewrite s_emit_pc in G3, L3.
  assert (M3 : marks z ends).
  { eapply marks_step; [eapply marks_step; [eapply marks_step; [exact M|exact G1|lia]|exact G2|lia]|exact G3|]. rewrite s_emit_pc. lia. }
  assert (N3 : notin (s_pc y) z) by (eapply notin_step; [exact G3|lia|]; apply notin_emit, notin_now, O1).
  assert (NO3 : nops z ends).
  { intros a I. pose proof (M a I) as [MA _]. rewrite (code_grows _ _ _ _ G3), code_emit_lt, (code_grows _ _ _ _ G1) by lia. apply NO, I. }
  assert (CN : code_at z (s_pc y) = Some INop) by (rewrite (code_grows _ _ _ _ G3) by lia; apply code_emit_at).
  assert (K : exists ends1 x2 t, compile_branches rest ends1 (s_patch (s_pc y) (IJumpIfFalse r t) x2) = COk (ends', x') /\
    N.to_nat t = s_pc x2 /\ ok x2 /\ notin (s_pc y) x2 /\ marks x2 ends1 /\
    (forall a, In a ends1 -> code_at x2 a = Some INop /\ a <> s_pc y) /\ later z x2 /\ sgrows 0 z x2 /\
    code_at x2 (s_pc y) = Some INop /\
    (rest = [] /\ x2 = z \/ In (s_pc z) ends1)).
  { destruct rest as [|p rest].
    - apply bind_ok in H as (t & T & H). exists ends, z, t. apply target_eq in T.
      split; [exact H|]. split; [exact T|]. split; [exact O3|]. split; [exact N3|]. split; [exact M3|]. split.
      { intros a I. split; [apply NO3, I|]. pose proof (M a I). lia. }
      split; [apply later_refl|]. split; [apply sgrows_refl|]. split; [exact CN|]. left. auto.
    - apply bind_ok in H as (t & T & H). exists (ends ++ [s_pc z]), (s_emit INop pos z), t. apply target_eq in T.
      destruct (ok_emit INop pos z O3) as [O4 G4].
      split; [exact H|]. split; [exact T|]. split; [exact O4|]. split; [exact N3|]. split; [apply marks_emit; assumption|]. split.
      { intros a I. apply in_app_iff in I as [I|[<-|[]]].
        - pose proof (M a I) as [MA _]. rewrite code_emit_lt by lia. split; [apply NO3, I|lia].
        - split; [apply code_emit_at|lia]. }
      split; [apply later_emit|]. split; [eapply sgrows_weaken; [exact G4|lia]|].
      split; [rewrite code_emit_lt by lia; exact CN|]. right. apply in_app_iff. right. left. reflexivity. }
  clear H. destruct K as (ends1 & x2 & t & H & T & O4 & N4 & M4 & NO4 & L4 & G4 & CN4 & LAST).
  set (x1 := s_patch (s_pc y) (IJumpIfFalse r t) x2) in *.
  assert (O5 : ok x1) by (apply ok_patch; assumption).
  assert (G5 : sgrows (s_pc x1) x1 x').
  { eapply branches_ext; [exact BS|exact H|]. apply ext_start, O5. }
  assert (LX1 : later x1 X) by (eapply later_trans; [apply later_grows, G5|apply FI]).
  assert (LX2 : later x2 X) by (eapply later_trans; [apply later_patch; exact CN4|exact LX1]).
  assert (LZ : later z X) by (eapply later_trans; eassumption).
  assert (LB : later (s_emit INop pos y) X) by (eapply later_trans; [apply later_grows; rewrite s_emit_pc; exact G3|exact LZ]).
  assert (LY : later y X) by (eapply later_trans; [apply later_emit|exact LB]).
  assert (P4 : s_pc z <= s_pc x2) by apply (la_pc _ _ L4).
  assert (P5 : s_pc x1 = s_pc x2) by apply s_patch_pc.
  assert (FB : fetched img (s_pc y) (IJumpIfFalse r t)).
  { eapply has_at; [exact HS| |discriminate|lia]. apply (la_code _ _ LX1); [|discriminate]. apply code_patch_at. lia. }
  destruct (branches_nops _ BS _ _ _ _ H O5) as (_ & IN & _).
  { intros a I. destruct (NO4 a I) as [A1 A2]. unfold x1. rewrite code_patch_other by exact A2. exact A1. }
  exists (s_emit INop pos y), z, ends1, x1.
  split; [exact E0|]. split; [exact O2|]. split; [hinner; [exact LZ|rewrite s_emit_pc; lia]|]. split; [|split].
  - intros c h s res s1 ST PC Te.
    destruct (guard_sim powf img upcall L hidden calls ups entry L_ok L_ns L_ap functions_ok calls_local _ _ _ _ _ _ _ _ _ E O ltac:(hinner; [exact LY|lia]) LO ST PC Te) as [K|K]; [left; exact K|right].
    destruct res as [b|er]; [|exact K]. destruct K as (c1 & h1 & Ga & P1 & S1 & R1).
    assert (exists c' h', go c1 h1 c' h' /\ c_pc c' = (if b then S (c_pc c1) else N.to_nat t) /\ state (snd (if b then s_emit INop pos y else x1)) c' h' s1) as K.
    { eapply branched; [exact S1|rewrite P1; exact FB|exact R1| |]; destruct b; cbn [snd].
      - apply (la_syms _ _ (later_emit INop pos y)).
      - change (snd x1) with (snd x2). eapply ext_trans; [|apply (la_syms _ _ L4)]. apply (ext_grows (snd (s_emit INop pos y))), G3.
      - eapply ext_trans; [apply (la_syms _ _ LB)|apply HS]. - eapply ext_trans; [apply (la_syms _ _ LX1)|apply HS]. }
    destruct b; (eapply andthen; [exact Ga|]); [rewrite P1 in K; rewrite s_emit_pc; exact K|rewrite T in K; rewrite P5; exact K].
  - intros c h s ST PC. destruct LAST as [[-> ->]|I].
    + cbn [compile_branches] in H. apply COk_inj, pair_inj in H as [_ H]. exists c, h. split; [apply go_refl, ST|].
      split; [rewrite PC, (fi_pc _ _ FI), <- H; symmetry; exact P5|]. eapply state_ext; [exact L_ns| | |exact ST]; [|apply HS].
      apply (la_syms _ _ LZ).
    + destruct (J _ (IN _ I)) as (t' & Ft & Et). eapply jumped; [exact ST|rewrite PC; exact Ft|exact Et|apply (la_syms _ _ LZ)|apply HS].
  - split; [eapply sgrows_trans; [exact G4|]; eapply sgrows_trans; [apply sgrows_patch, Nat.le_0_l|eapply sgrows_weaken; [exact G5|lia]]|].
    split; [exact H|]. split; [exact O5|]. split; [apply marks_patch; exact M4|]. split.
    { intros a I. destruct (NO4 a I) as [A1 A2]. unfold x1. rewrite code_patch_other by exact A2. exact A1. }
    eapply has_inner; [exact HS|apply later_refl|lia].
Qed.

Lemma if_filled bs x x' : framed bs -> compile_if bs x = COk x' -> ok x -> has x x' ->
  exists ends x1, compile_branches bs [] x = COk (ends, x1) /\ filled x1 x' /\
    forall a, In a ends -> exists t, fetched img a (IJump t) /\ N.to_nat t = s_pc x'.
Proof.
  intros B H O HS. unfold compile_if in H. apply bind_ok in H as ([ends x1] & E & H).
  destruct (branches_nops _ B _ _ _ _ E O) as (NO & _ & RG); [intros a []|].
  pose proof (jumps_spec _ _ _ _ H) as JS. rewrite map_map in JS. cbn [fst] in JS. rewrite map_id in JS.
  destruct JS as (J1 & J2 & J3 & J4 & gg & J5); [intros a I; eapply code_lt, NO, I|]. exists ends, x1. split; [exact E|]. split.
  - constructor; [|exact J3|exact J4|rewrite J5; reflexivity|rewrite J5; reflexivity|rewrite J5; reflexivity].
    eapply later_jumps; [exact H| |exact J4|exact J3].
    intros p i C NI. destruct (in_dec Nat.eq_dec p ends) as [I|I]; [rewrite (NO p I) in C; congruence|]. rewrite J2 by exact I. exact C.
  - intros a I. destruct (J1 a I) as (t & Ct & Et). exists t. split; [|rewrite J3; exact Et].
    eapply has_at; [exact HS|exact Ct|discriminate|]. destruct (RG a I) as [[]|]. assumption.
Qed.
End Flow.
