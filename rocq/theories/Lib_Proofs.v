(** Functions and commands that are given values only keep the contract of hosts. *)
From Coq Require Import String.
From Verif Require Import Base Bytecode_Model Mem_Model Mem_Spec Mem_Proofs Num_Model Vm_Model Vm_Spec Vm_Proofs Ids_Model
  Ids_Proofs Ast_Model Syms_Model Syms_Proofs Codegen_Model Exprs_Model Args_Spec Eval_Spec Eval_Proofs Call_Spec
  Run_Proofs Call_Proofs Host_Model Host_Proofs Host_Case Exec_Spec Cmds_Model Cmds_Spec Cmds_Proofs Cmds_Host
  Input_Model Input_Spec Input_Proofs Lib_Model Lib_Spec.
Local Open Scope string_scope.
Local Open Scope list_scope.
Local Open Scope nat_scope.

Section Lib.
Context {W : Type}.
Variable img : image.

(** What a value of its type becomes. *)
Lemma encode_holds (cs : list cdatum) (h : heap) d h' raw : heap_ok h -> (forall z, d = CInt z -> in_i32 z) ->
  encode h d = Some (h', raw) -> heap_kept h h' /\ stands_for cs h' (cdatum_etype d) raw d.
Proof.
  intros HO IZ EN. destruct d as [b|x|z|x]; cbn [encode] in EN.
  - injection EN as <- <-. split; [apply heap_kept_refl, HO|]. cbn. auto.
  - injection EN as <- <-. split; [apply heap_kept_refl, HO|]. cbn. auto.
  - injection EN as <- <-. split; [apply heap_kept_refl, HO|]. cbn [stands_for cdatum_etype]. split; [reflexivity|].
    split; [apply IZ; reflexivity|]. apply as_i32_of, IZ. reflexivity.
  - split; [|split; [reflexivity|eapply heap_push_text_deref; eassumption]].
    pose proof (heap_push_char h (HText x) HO) as C. rewrite EN in C. split; [eapply heap_push_ok; eassumption|]. apply C.
Qed.

Lemma world_holding L hidden ls skip c (m : mem W) (s : env W) (w : W) : holding L hidden (i_constants img) ls skip c m s ->
  holding L hidden (i_constants img) ls skip c (mkMem (m : heap) w) (mkEnv (vals s) w).
Proof. intros HD. destruct HD as [A1 A2 A3 A4 A5 A6 A7 A8 A9 A10]. constructor; auto. Qed.

(** Leaving a value in the register of the result. *)
Lemma leaves_value L hidden ls skip c (m : mem W) (s : env W) ret gs d (w : W) :
  tables_ok (by_now L ls) -> holding L hidden (i_constants img) ls skip c m s -> (64 <= ret < 256)%N ->
  (skip = Some ret \/ c_fp c + id_len (ls_locals ls) <= reg_index c ret) -> reg_index c ret < length (c_regs c) ->
  (forall z, d = CInt z -> in_i32 z) ->
  exists u0, leave_value ret c m w d = Some u0 /\
    served img L hidden ls skip c m (Some (ret, cdatum_etype d)) gs (Ok (Some d)) (mkEnv (vals s) w) u0.
Proof.
  intros T HD RR DS LT IZ. unfold leave_value. destruct (encode m d) as [[h raw]|] eqn:EN.
  2:{ eexists. split; [reflexivity|]. left. exists None, (u "Out of heap space"). split; reflexivity. }
  unfold scope_return. destruct (Nat.ltb_spec (reg_index c ret) (length (c_regs c))) as [_|GE]; [|clear -GE LT; lia].
  eexists. split; [reflexivity|]. right. cbn [u_failure u_regs u_heap u_world].
  destruct (encode_holds (i_constants img) m d h raw (hd_heap _ _ _ _ _ _ _ _ HD) IZ EN) as [HK ST].
  pose proof (hd_fp _ _ _ _ _ _ _ _ HD) as FP.
  set (c' := set_regs c (upd (c_regs c) (reg_index c ret) raw)).
  assert (SL : forall i, i <> reg_index c ret -> slot c' i = slot c i).
  { intros i NE. unfold slot, c', set_regs. cbn [c_regs].
    pose proof (upd_nth_other (c_regs c) (reg_index c ret) i raw (fun E => NE (eq_sym E))) as E.
    destruct (nth_error (c_regs c) i) as [a|] eqn:A.
    - rewrite (nth_error_nth _ _ _ E), (nth_error_nth _ _ _ A). reflexivity.
    - rewrite !nth_overflow; [reflexivity| |]; apply nth_error_None; assumption. }
  split; [reflexivity|]. split; [rewrite upd_length; apply le_n|].
  split; [split; [apply HK|intros i x; apply HK]|]. split; [|split].
  - eapply holding_same with (m := mkMem m w) (c := c); [apply world_holding, HD|apply HD|repeat split|reflexivity|exact HK|].
    intros v r p G NS. apply SL. intros E. change (reg_index c r = reg_index c ret) in E. apply reg_index_inj in E; [|exact FP]. subst r.
    destruct DS as [DS|DS]; [contradiction|].
    destruct (lookup_range (by_now L ls) v ret p (proj1 T) G) as [R|[R _]]; [clear -R RR; lia|].
    cbn [by_now ls_locals] in R. revert DS. unfold reg_index, register_to_parts, max_global.
    destruct (N.ltb_spec ret 64); cbn [fst snd]; clear -R RR FP; lia.
  - intros i NE _. apply SL. apply (NE ret (cdatum_etype d) eq_refl).
  - intros d' E. injection E as <-.
    fold c'. unfold get_reg. change (reg_index c' ret) with (reg_index c ret). unfold c', set_regs. cbn [c_regs].
    rewrite (nth_error_nth _ _ _ (upd_nth_same _ _ _ LT)). exact ST.
Qed.

Lemma leaves_nothing L hidden ls c (m : mem W) (s : env W) gs (w : W) : holding L hidden (i_constants img) ls None c m s ->
  served img L hidden ls None c m None gs (Ok None) (mkEnv (vals s) w) (mkUpcall W (c_regs c) m w None).
Proof.
  intros HD. right. cbn [u_failure u_regs u_heap u_world].
  split; [reflexivity|]. split; [apply le_n|]. split; [split; [apply (hd_heap _ _ _ _ _ _ _ _ HD)|auto]|].
  assert (EC : set_regs c (c_regs c) = c) by (destruct c; reflexivity). rewrite EC. split; [|split; [reflexivity|exact Logic.I]].
  apply world_holding, HD.
Qed.

(** What is laid out for a function is what its scope has after the register of the value. *)
Lemma laid_after L ls c (m : mem W) first gs : laid L ls (i_constants img) c m (S (reg_index c first)) gs -> only_values gs ->
  given_from (fun k => scope_get c first (1 + k)) (fun raw => deref_text raw (i_constants img) m) 0 gs.
Proof.
  intros LA NR k g E. specialize (LA k g E). unfold given_at, scope_get. cbn [Nat.add] in LA |- *.
  rewrite Nat.add_succ_r. destruct g as [[b|x|z|t]|t|r t]; cbn [slot_holds stands_for] in LA; try (apply LA).
  exfalso. apply (NR r t). eapply nth_error_In, E.
Qed.

Variable ps : list (provided W).
Variable does : doing W.
Variable ups : list ustr.
Variable shared : ustr -> bool.
Variable other : N -> N -> nat -> image -> ctx -> heap -> W -> option (upcall_result W).
Variable others : ustr -> list given -> env W -> res vm_error (option cdatum) -> env W -> Prop.
Variable mds : list (ustr * callable_md).
Hypothesis OB : host_obeys other img ups others mds shared.
Hypothesis PR : provides ps does.
Notation names := (map fst (lib_upcalls ps)).
Notation host := (lib_host ps other ups).

Lemma lib_none k : ~ In k names -> find (fun p => ustr_eqb (pv_name p) k) ps = None.
Proof.
  unfold lib_upcalls. rewrite map_map. cbn [fst]. clear. induction ps as [|p l IH]; cbn [map In find]; intros N0; [reflexivity|].
  destruct (ustr_eqb (pv_name p) k) eqn:Q; [apply ustr_eqb_eq in Q; tauto|]. apply IH. tauto.
Qed.
Lemma lib_other idx k first pc c h w : nth_error ups (N.to_nat idx) = Some k -> ~ In k names ->
  host idx first pc img c h w = other idx first pc img c h w.
Proof. intros UP N0. unfold lib_host. rewrite UP, lib_none by exact N0. reflexivity. Qed.
Lemma lib_other_md k md : assoc (lib_upcalls ps ++ mds) k = Some md -> ~ In k names -> assoc mds k = Some md.
Proof.
  unfold lib_upcalls. rewrite map_map. cbn [fst]. clear. induction ps as [|p l IH]; cbn [map In app assoc]; intros E N0; [exact E|].
  destruct (ustr_eqb (pv_name p) k) eqn:Q; [apply ustr_eqb_eq in Q; tauto|]. apply IH; tauto.
Qed.
Lemma lib_md k md p : assoc (lib_upcalls ps ++ mds) k = Some md -> find (fun p => ustr_eqb (pv_name p) k) ps = Some p -> md = pv_md p.
Proof.
  unfold lib_upcalls. clear. induction ps as [|q l IH]; cbn [map app assoc find]; [discriminate|].
  destruct (ustr_eqb (pv_name q) k); [intros E F; congruence|exact IH].
Qed.

Lemma lib_obeys : host_obeys host img ups (value_calls does names others) (lib_upcalls ps ++ mds) shared.
Proof.
  constructor.
  - intros idx first pc c c' h w R F. unfold lib_host, provided_exec, leave_value, scope_return, scope_get, slot.
    assert (E : reg_index c first = reg_index c' first) by (unfold reg_index; rewrite F; reflexivity).
    rewrite R, E. rewrite (ob_scope _ _ _ _ _ _ OB idx first pc c c' h w R F). reflexivity.
  - intros k gs s r s' k' H SH NG V. destruct H as [k gs s r w' _|k gs s r s' _ O]; [exact V|eapply (ob_locals _ _ _ _ _ _ OB); eassumption].
  - intros L hidden ls skip c m s idx k md t ret pc gs r s' UP MD RT T HD RR DS LT LA GA CC.
    destruct CC as [k gs s r w' D|k gs s r s' NC O].
    2:{ rewrite (lib_other _ _ _ _ _ _ _ UP NC). eapply (ob_function _ _ _ _ _ _ OB); try eassumption. apply lib_other_md; assumption. }
    destruct (PR _ _ _ _ _ D) as (OV & p & F & TY & EX). assert (EM := lib_md _ _ _ MD F). subst md.
    unfold lib_host. rewrite UP, F. unfold provided_exec, arg_offset. rewrite RT. destruct GA as (md0 & E0 & E1). rewrite E0. cbv zeta.
    destruct (EX _ _ (m_args md0) (laid_after _ _ _ _ _ _ LA OV) E1) as (r' & X & SD). rewrite (hd_world _ _ _ _ _ _ _ _ HD), X.
    destruct r' as [v|[pos msg]]; cbn [said] in SD; subst r; cbn [as_result].
    + specialize (TY v eq_refl). unfold declares in TY. rewrite RT in TY. destruct v as [d|]; [|destruct TY]. destruct TY as [<- IZ].
      eapply leaves_value; eassumption.
    + eexists. split; [reflexivity|]. right. split; [exists pos, msg; split; reflexivity|reflexivity].
  - intros L hidden ls c m s idx k md first pc gs r s' UP MD RT T HD RR LA GA GR CC.
    destruct CC as [k gs s r w' D|k gs s r s' NC O].
    2:{ rewrite (lib_other _ _ _ _ _ _ _ UP NC). eapply (ob_command _ _ _ _ _ _ OB); try eassumption. apply lib_other_md; assumption. }
    destruct (PR _ _ _ _ _ D) as (OV & p & F & TY & EX). assert (EM := lib_md _ _ _ MD F). subst md.
    unfold lib_host. rewrite UP, F. unfold provided_exec, arg_offset. rewrite RT. destruct GA as (md0 & E0 & E1). rewrite E0. cbv zeta.
    destruct (EX _ _ (m_args md0) (laid_given _ _ _ _ _ _ _ LA OV) E1) as (r' & X & SD). cbn [Nat.add]. rewrite (hd_world _ _ _ _ _ _ _ _ HD).
    change (pv_exec p (fun k0 => scope_get c first k0)) with (pv_exec p (scope_get c first)). rewrite X.
    destruct r' as [v|[pos msg]]; cbn [said] in SD; subst r; cbn [as_result].
    + specialize (TY v eq_refl). unfold declares in TY. rewrite RT in TY. destruct v as [d|]; [destruct TY|].
      eexists. split; [reflexivity|]. apply leaves_nothing, HD.
    + eexists. split; [reflexivity|]. right. split; [exists pos, msg; split; reflexivity|reflexivity].
Qed.

(** What they are given has nothing to be told about variables. *)
Lemma values_told ty gs : only_values gs -> map (told ty) gs = gs.
Proof.
  clear. intros NR. induction gs as [|g gs IH]; [reflexivity|]. cbn [map]. rewrite IH; [|intros k0 t I0; apply (NR k0 t); right; exact I0].
  destruct g as [d|t|k0 t]; try reflexivity. exfalso. apply (NR k0 t). left. reflexivity.
Qed.
End Lib.
