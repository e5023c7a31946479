(** The console keeps the contract of hosts. *)
From Coq Require Import String.
From Verif Require Import Base Bytecode_Model Mem_Model Mem_Spec Mem_Proofs Num_Model Vm_Model Vm_Spec Vm_Proofs Ids_Model
  Ids_Proofs Ast_Model Syms_Model Syms_Proofs Codegen_Model Exprs_Model Args_Spec Eval_Spec Eval_Proofs Call_Spec
  Run_Proofs Call_Proofs Host_Model Host_Proofs Host_Case Exec_Spec Cmds_Model Cmds_Spec Cmds_Proofs.
Local Open Scope string_scope.
Local Open Scope list_scope.
Local Open Scope nat_scope.

Section Console.
Variable show_double : N -> ustr.
Context {W : Type}.
Variable perform : con_op -> W -> W * option ustr.
Variable size : W -> res ustr (N * N).
Variable ups : list ustr.
Variable img : image.
Variable shared : ustr -> bool.
Variable other : N -> N -> nat -> image -> ctx -> heap -> W -> option (upcall_result W).
Variable others : ustr -> list given -> env W -> res vm_error (option cdatum) -> env W -> Prop.
Variable mds : list (ustr * callable_md).
Hypothesis OB : host_obeys other img ups others mds shared.

(** What is laid out for a command is what its scope has. *)
Lemma laid_given L ls c (m : mem W) first gs : laid L ls (i_constants img) c m (reg_index c first) gs ->
  (forall k t, ~ In (GRef k t) gs) ->
  given_from (scope_get c first) (fun raw => deref_text raw (i_constants img) m) 0 gs.
Proof.
  intros LA NR k g E. specialize (LA k g E). unfold given_at, scope_get. cbn [Nat.add].
  destruct g as [[b|x|z|t]|t|r t]; cbn [slot_holds stands_for] in LA; try (apply LA).
  exfalso. apply (NR r t). eapply nth_error_In, E.
Qed.

Lemma slots_values l k t : ~ In (GRef k t) (slots l).
Proof.
  unfold slots. intros H. apply in_flat_map in H. destruct H as ([[d|] sep] & _ & H); cbn [item_slots In] in H;
    repeat destruct H as [H|H]; try discriminate H; exact H.
Qed.

Lemma told_slots ty l : map (told ty) (slots l) = slots l.
Proof.
  unfold slots. induction l as [|[[d|] sep] l IH]; cbn [flat_map item_slots map app told]; [reflexivity| |]; rewrite IH; reflexivity.
Qed.

Lemma operated_served L hidden ls c (m : mem W) s gs op r s' :
  holding L hidden (i_constants img) ls None c m s -> operated perform op s r s' ->
  exists u, finish_op perform c m (m_world m) (Some (Ok op)) = Some u /\ served img L hidden ls None c m None gs r s' u.
Proof.
  intros HD (e & P & V & ->). cbn [finish_op]. rewrite (hd_world _ _ _ _ _ _ _ _ HD), P. eexists. split; [reflexivity|].
  right. cbn [u_failure u_regs u_heap u_world]. destruct e as [msg|].
  - split; [|reflexivity]. exists None, msg. split; reflexivity.
  - split; [reflexivity|]. split; [apply le_n|]. split; [split; [apply (hd_heap _ _ _ _ _ _ _ _ HD)|auto]|].
    assert (EC : set_regs c (c_regs c) = c) by (destruct c; reflexivity). rewrite EC. split; [|split; [reflexivity|exact Logic.I]].
    destruct s as [sv sw], s' as [sv' sw']. cbn [vals world] in *. subst sv'.
    destruct HD as [A1 A2 A3 A4 A5 A6 A7 A8 A9 A10]. constructor; auto.
Qed.

Lemma attempted_served L hidden ls c (m : mem W) s gs e o r s' :
  holding L hidden (i_constants img) ls None c m s -> performs e o -> attempted perform o s r s' ->
  exists u, finish_op perform c m (m_world m) e = Some u /\ served img L hidden ls None c m None gs r s' u.
Proof.
  intros HD P A. destruct o as [op|msg]; cbn [performs attempted] in P, A.
  - subst e. eapply operated_served; eassumption.
  - destruct P as [p ->], A as [-> ->]. cbn [finish_op]. eexists. split; [reflexivity|]. right. split; [exists p, msg; split; reflexivity|].
    exact (hd_world _ _ _ _ _ _ _ _ HD).
Qed.
Lemma color_values gs o : color_does gs o -> forall k t, ~ In (GRef k t) gs.
Proof.
  intros H k t. destruct H as [|z _|[x|] [y|] _ _|z _|[x|] [y|] _]; cbn; intros I0; repeat destruct I0 as [I0|I0]; try discriminate I0; exact I0.
Qed.
Lemma locate_values z gs o : locate_does z gs o -> forall k t, ~ In (GRef k t) gs.
Proof.
  intros H k t. destruct H; cbn; intros I0; repeat destruct I0 as [I0|I0]; try discriminate I0; exact I0.
Qed.

Lemma of_console_known k md : assoc (console_upcalls ++ mds) k = Some md -> ~ of_console k -> assoc mds k = Some md.
Proof.
  intros E NC. unfold of_console in NC. revert E NC. generalize console_upcalls as l.
  induction l as [|[k' md'] l IH]; cbn [app assoc map fst In]; intros E NC; [exact E|].
  destruct (ustr_eqb k' k) eqn:Q; [apply ustr_eqb_eq in Q; subst k'; exfalso; apply NC; left; reflexivity|]. apply IH; [exact E|]. intros I. apply NC. right. exact I.
Qed.

Lemma console_other idx k first pc c h w : nth_error ups (N.to_nat idx) = Some k -> ~ of_console k ->
  console_host show_double perform size other ups idx first pc img c h w = other idx first pc img c h w.
Proof.
  intros UP NC. unfold console_host. rewrite UP.
  assert (NE : forall n, In n (map fst console_upcalls) -> ustr_eqb k n = false).
  { intros n I. destruct (ustr_eqb k n) eqn:Q; [apply ustr_eqb_eq in Q; subst n; contradiction|reflexivity]. }
  rewrite !NE by (cbn; auto 10). reflexivity.
Qed.

Lemma console_obeys : host_obeys (console_host show_double perform size other ups) img ups
  (console_calls show_double perform size others) (console_upcalls ++ mds) shared.
Proof.
  constructor.
  - intros idx first pc c c' h w R F. unfold console_host, finish_op, scr_exec, scope_return, scope_get, slot.
    assert (E : reg_index c first = reg_index c' first) by (unfold reg_index; rewrite F; reflexivity).
    rewrite R, E. rewrite (ob_scope _ _ _ _ _ _ OB idx first pc c c' h w R F). reflexivity.
  - intros k gs s r s' k' H SH NG V. assert (AT : forall o s r s', attempted perform o s r s' -> vals s k' = None -> vals s' k' = None).
    { clear. intros [op|msg] s r s' A V; cbn [attempted] in A; [destruct A as (e & _ & E & _); rewrite E; exact V|destruct A as [_ ->]; exact V]. }
    destruct H as [s r s' (e & _ & E & _)|gs o s r s' _ A|gs o s r s' _ A|s l op r s' _ _ _ (e & _ & E & _)| | | | |k gs s r s' _ O]; try exact V; try (rewrite E; exact V);
      try (eapply AT; eassumption).
    eapply (ob_locals _ _ _ _ _ _ OB); eassumption.
  - intros L hidden ls skip c m s idx k md t ret pc gs r s' UP MD RT T HD RR DS LT LA GA CC.
    destruct CC as [s r s' _|gs o s r s' _ _|gs o s r s' _ _|s l op r s' _ _ _ _|s x y SZ LE|s x y SZ LE|s msg SZ|s msg SZ|k gs s r s' NC O].
    9: { rewrite (console_other _ _ _ _ _ _ _ UP NC). eapply (ob_function _ _ _ _ _ _ OB); try eassumption. apply of_console_known; assumption. }
    all: unfold console_host; rewrite UP; cbn in MD; injection MD as <-; cbn [md_return] in RT;
      try discriminate RT; injection RT as <-.
    + change (exists u0, scr_exec size c ret m (m_world m) fst = Some u0 /\
        served img L hidden ls skip c m (Some (ret, TInteger)) [] (Ok (Some (CInt (Z.of_N x)))) s u0).
      unfold scr_exec. rewrite (hd_world _ _ _ _ _ _ _ _ HD), SZ. cbn [fst].
      destruct (leaves_result img L hidden ls skip c m s ret [] (Z.of_N x) T HD RR DS LT) as (regs & -> & SV).
      { unfold in_i32, i32_min, i32_max. clear -LE. lia. }
      eexists. split; [reflexivity|]. rewrite (hd_world _ _ _ _ _ _ _ _ HD) in SV. exact SV.
    + change (exists u0, scr_exec size c ret m (m_world m) snd = Some u0 /\
        served img L hidden ls skip c m (Some (ret, TInteger)) [] (Ok (Some (CInt (Z.of_N y)))) s u0).
      unfold scr_exec. rewrite (hd_world _ _ _ _ _ _ _ _ HD), SZ. cbn [snd].
      destruct (leaves_result img L hidden ls skip c m s ret [] (Z.of_N y) T HD RR DS LT) as (regs & -> & SV).
      { unfold in_i32, i32_min, i32_max. clear -LE. lia. }
      eexists. split; [reflexivity|]. rewrite (hd_world _ _ _ _ _ _ _ _ HD) in SV. exact SV.
    + change (exists u0, scr_exec size c ret m (m_world m) fst = Some u0 /\
        served img L hidden ls skip c m (Some (ret, TInteger)) [] (Err (XUpcall msg)) s u0).
      unfold scr_exec. rewrite (hd_world _ _ _ _ _ _ _ _ HD), SZ. eexists. split; [reflexivity|].
      right. split; [exists None, msg; split; reflexivity|]. cbn [u_world]. reflexivity.
    + change (exists u0, scr_exec size c ret m (m_world m) snd = Some u0 /\
        served img L hidden ls skip c m (Some (ret, TInteger)) [] (Err (XUpcall msg)) s u0).
      unfold scr_exec. rewrite (hd_world _ _ _ _ _ _ _ _ HD), SZ. eexists. split; [reflexivity|].
      right. split; [exists None, msg; split; reflexivity|]. cbn [u_world]. reflexivity.
  - intros L hidden ls c m s idx k md first pc gs r s' UP MD RT T HD RR LA GA GR CC.
    destruct CC as [s r s' O|gs o s r s' CD AT|gs o s r s' CD AT|s l op r s' IL LE PD O|s x y SZ LE|s x y SZ LE|s msg SZ|s msg SZ|k gs s r s' NC O].
    9: { rewrite (console_other _ _ _ _ _ _ _ UP NC). eapply (ob_command _ _ _ _ _ _ OB); try eassumption. apply of_console_known; assumption. }
    all: unfold console_host; rewrite UP; cbn in MD; injection MD as <-; cbn [md_return] in RT;
      try discriminate RT.
    + exact (operated_served _ _ _ _ _ _ [] _ _ _ HD O).
    + destruct GA as (md0 & E0 & E1). rewrite E0.
      change (exists u0, finish_op perform c m (m_world m) (color_exec (scope_get c first) (m_args md0)) = Some u0 /\
        served img L hidden ls None c m None gs r s' u0).
      eapply attempted_served; [exact HD| |exact AT].
      eapply color_performs; [exact CD|eapply laid_given; [exact LA|apply (color_values gs o CD)]|exact E1].
    + destruct GA as (md0 & E0 & E1). rewrite E0.
      change (exists u0, finish_op perform c m (m_world m) (locate_exec (scope_get c first) (m_args md0) (size (m_world m))) = Some u0 /\
        served img L hidden ls None c m None gs r s' u0).
      eapply attempted_served; [exact HD| |exact AT]. rewrite (hd_world _ _ _ _ _ _ _ _ HD).
      eapply locate_performs; [exact CD|eapply laid_given; [exact LA|apply (locate_values (size (world s)) gs o CD)]|exact E1].
    + pose proof (print_exec_does _ _ _ _ _ IL PD (laid_given _ _ _ _ _ _ LA (slots_values l)) LE) as E.
      change (exists u0, finish_op perform c m (m_world m) (print_exec (scope_get c first) (fun raw => deref_text raw (i_constants img) m) show_double) = Some u0 /\
        served img L hidden ls None c m None (slots l) r s' u0).
      rewrite E. eapply operated_served; eassumption.
Qed.
End Console.

(** What PRINT is given is what its arguments are. *)
Lemma items_deliver new powf {W} callable variable (calls : ustr -> list given -> env W -> res vm_error (option cdatum) -> env W -> Prop) s args l s1 :
  item_values powf callable variable calls s args l s1 ->
  delivers powf callable variable calls new s (wants print_syntax args) (Ok (slots (some_item l))) s1.
Proof.
  assert (M : forall s args l s1, item_values powf callable variable calls s args l s1 ->
    delivers powf callable variable calls new s (flat_map (repeated_want (mkRepeated (u "expr") RepAny (SepOneOf [SepLong; SepShort]) false true)) args) (Ok (slots l)) s1).
  { clear. intros s args l s1 H. unfold slots. induction H as [s|s e sep p args d s1 l s2 E H IH|s sep p args l s2 H IH]; cbn [flat_map repeated_want untagged rp_type rp_allow_missing rp_sep item_slots app].
    - apply D_none.
    - change (GTag (VImmediate sep (cdatum_etype d)) :: GValue d :: flat_map item_slots l) with
        ([GTag (VImmediate sep (cdatum_etype d)); GValue d] ++ flat_map item_slots l).
      eapply D_more; [|exact IH]. apply G_tagged. eapply A_value; [exact E|reflexivity].
    - change (GTag (VMissing sep) :: flat_map item_slots l) with ([GTag (VMissing sep)] ++ flat_map item_slots l).
      eapply D_more; [|exact IH]. apply G_missing. }
  intros H. unfold wants, print_syntax. cbn [sy_singular sy_repeated fixed_wants length skipn app]. unfold repeated_wants.
  destruct args as [|a args].
  - inversion H; subst. cbn [some_item]. change (slots [(None, SepEnd)]) with ([GTag (VMissing SepEnd)] ++ []).
    eapply D_more; [|apply D_none]. apply G_missing.
  - destruct l as [|i l]; [inversion H|]. cbn [some_item]. apply M, H.
Qed.
