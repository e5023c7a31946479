(** Hosts that keep their contract serve the calls of compiled code. *)
From Coq Require Import String.
From Verif Require Import Base Bytecode_Model Bytecode_Spec Bytecode_Proofs Mem_Model Mem_Spec Mem_Proofs Num_Model
  Vm_Model Vm_Spec Vm_Proofs Ids_Model Ids_Spec Ids_Proofs Ast_Model Syms_Model Syms_Proofs Codegen_Model
  Codegen_Proofs Exprs_Model Exprs_Proofs Args_Spec Args_Proofs Eval_Spec Eval_Proofs Call_Spec Run_Proofs Call_Proofs.
Local Open Scope string_scope.
Local Open Scope list_scope.
Local Open Scope nat_scope.

Lemma reg_index_inj c r r' : 64 <= c_fp c -> reg_index c r = reg_index c r' -> r = r'.
Proof.
  intros F. unfold reg_index, register_to_parts, max_global.
  destruct (N.ltb_spec r 64), (N.ltb_spec r' 64); cbn [fst snd]; lia.
Qed.

Section Host.
Variable powf : N -> N -> N.
Variable img : image.
Context {W : Type}.
Variable upcall : N -> N -> nat -> image -> ctx -> heap -> W -> option (upcall_result W).
Variable ups : list ustr.
Variable calls : ustr -> list given -> env W -> res vm_error (option cdatum) -> env W -> Prop.
Variable mds : list (ustr * callable_md).
Variable shared : ustr -> bool.
Hypothesis OB : host_obeys upcall img ups calls mds shared.
Variable L : lsyms.
Variable hidden : N -> option hdatum.
Notation cs := (i_constants img).
Notation holding := (holding L hidden cs).
Notation knowing := (knowing L).
Notation laid := (laid L).
Notation shares_well := (shares_well L).
Notation gsettles := (gsettles powf img upcall L hidden).
Notation greach := (greach powf img upcall).
Notation gives_up := (gives_up powf upcall img).
Implicit Types (m : mem W) (s : env W).

Lemma asks_at c m md idx first : c_yield c = false -> fetched img (c_pc c) (upcall_instr md idx first) ->
  asks powf img c m idx first (c_pc c) (Vm_Model.next_pc c) m.
Proof.
  intros Y F. unfold asks. rewrite (step_at powf img _ _ _ Y F). unfold upcall_instr. destruct (md_async md); auto.
Qed.

Lemma referenced_busy ls skip c m s gs i : knowing ls -> holding ls skip c m s -> shares_well ls skip gs -> idle ls skip c i ->
  referenced L ls c gs i -> False.
Proof.
  intros K HD SW ID (v & r & p & t & I & G & ->). pose proof (hd_fp _ _ _ _ _ _ _ _ HD) as FP.
  pose proof (by_now_range _ _ _ _ _ K G) as R. destruct ID as [ID|[ID|(r0 & E & ID)]].
  - destruct R as [R|R]; unfold reg_index, register_to_parts, max_global in ID; destruct (N.ltb_spec r 64); cbn [fst snd] in ID; lia.
  - pose proof (by_now_slot _ _ _ _ _ c K G FP). lia.
  - apply reg_index_inj in ID; [|exact FP]. subst r0. exact (SW _ _ _ _ I G E).
Qed.

(** A served call moves on to the next instruction. *)
Lemma served_on ls skip c m s md idx first ret gs v s' u lim reg : knowing ls -> holding ls skip c m s ->
  fetched img (c_pc c) (upcall_instr md idx first) -> upcall idx first (c_pc c) img c m (m_world m) = Some u ->
  shares_well ls skip gs -> (forall r t, ret = Some (r, t) -> r = reg) ->
  served img L hidden ls skip c m ret gs (Ok v) s' u ->
  (exists e w, out_of_memory e /\ fails powf upcall img c m e w) \/
  let c' := set_regs (Vm_Model.next_pc c) (u_regs W u) in
  let m' := mkMem (u_heap W u) (u_world W u) in
  greach ls skip lim reg c m c' m' /\ holding ls skip c' m' s' /\
  match ret with Some (r, t) => forall d, v = Some d -> stands_for cs m' t (get_reg c' r) d | None => True end.
Proof.
  intros K HD F U SW RG SV. pose proof (hd_yield _ _ _ _ _ _ _ _ HD) as Y.
  assert (U' : upcall idx first (c_pc c) img (Vm_Model.next_pc c) m (m_world m) = Some u).
  { rewrite <- U. symmetry. apply (ob_scope _ _ _ _ _ _ OB); reflexivity. }
  pose proof (asks_at _ m _ _ _ Y F) as A.
  destruct SV as [(p & msg & E & X)|(E & LE & TK & HD' & SL & ST)].
  - left. exists (XUpcall msg), (u_world W u). split; [right; left; symmetry; exact X|]. eapply F_host; eassumption.
  - right. cbv zeta. set (c' := set_regs (Vm_Model.next_pc c) (u_regs W u)). set (m' := mkMem (u_heap W u) (u_world W u)) in *.
    assert (HD2 : holding ls skip c' m' s').
    { eapply holding_same; [exact HD'|exact Y|repeat split|reflexivity|apply heap_kept_refl; exact (hd_heap _ _ _ _ _ _ _ _ HD')|intros; reflexivity]. }
    split; [|split; [exact HD2|exact ST]]. split; [|split; [repeat split|split; [exact TK|]]].
    + eapply g_host; [exact A|exact U'|exact E|]. fold c'. fold m'.
      assert (EC : set_yield c' false = c') by (unfold c', set_yield, set_regs, Vm_Model.next_pc, set_pc; cbn [c_pc c_fp c_handler c_regs c_stack c_max c_yield]; rewrite Y; reflexivity).
      rewrite EC. constructor.
    + intros i I NE ID. change (slot c' i) with (slot (set_regs c (u_regs W u)) i). apply SL.
      * intros r t R. rewrite (RG _ _ R). exact NE.
      * intros R. eapply referenced_busy; eassumption.
Qed.

Lemma served_fails c m md idx first e w u : c_yield c = false ->
  fetched img (c_pc c) (upcall_instr md idx first) -> upcall idx first (c_pc c) img c m (m_world m) = Some u ->
  host_failed u e -> u_world W u = w -> fails powf upcall img c m e w.
Proof.
  intros Y F U (p & msg & E & ->) <-. eapply F_host; [eapply asks_at; eassumption| |exact E].
  rewrite <- U. symmetry. apply (ob_scope _ _ _ _ _ _ OB); reflexivity.
Qed.

Lemma host_function ls skip c m s k md t ret lim gs r s' idx :
  assoc mds k = Some md -> md_return md = Some t -> nth_error ups (N.to_nat idx) = Some k ->
  fetched img (c_pc c) (upcall_instr md idx ret) -> gives_at img (c_pc c) (length gs) -> knowing ls -> holding ls skip c m s ->
  (64 <= ret < 256)%N -> dest ls skip ret -> laid ls cs c m (S (reg_index c ret)) gs -> shares_well ls skip gs ->
  calls k gs s r s' ->
  match r with
  | Ok None => True
  | Ok (Some d) => gsettles ls skip (S (c_pc c)) lim ret t c m (Ok d) s'
  | Err e => gsettles ls skip (S (c_pc c)) lim ret t c m (Err e) s'
  end.
Proof.
  intros MD RT UP F GA K HD RR DS LA SW CC. pose proof (hd_yield _ _ _ _ _ _ _ _ HD) as Y. pose proof (hd_fp _ _ _ _ _ _ _ _ HD) as FP.
  assert (STK : length (c_regs c) <= reg_index c ret -> Call_Proofs.stuck powf img upcall c m).
  { intros LE. exists c, m. split; [constructor|]. right.
    exists idx, ret, (c_pc c), (Vm_Model.next_pc c), (m : heap). split; [eapply asks_at; eassumption|exact LE]. }
  destruct (Nat.ltb_spec (reg_index c ret) (length (c_regs c))) as [LT|LE].
  2:{ destruct r as [[d|]|e]; auto; left; auto. }
  assert (DS' : skip = Some ret \/ c_fp c + id_len (ls_locals ls) <= reg_index c ret).
  { destruct DS as [DS|DS]; [left; exact DS|right]. unfold reg_index, register_to_parts, max_global.
    destruct (N.ltb_spec ret 64); cbn [fst snd]; lia. }
  destruct (ob_function _ _ _ _ _ _ OB L hidden ls skip c m s idx k md t ret (c_pc c) gs r s' UP MD RT (kn_ok _ _ K) HD RR DS' LT LA GA CC)
    as (u0 & U & SV).
  destruct r as [[d|]|e]; auto.
  - destruct (served_on ls skip c m s md idx ret (Some (ret, t)) gs (Some d) s' u0 lim ret K HD F U SW) as [X|(A & B & C)]; auto.
    + intros q t' E. injection E as -> _. reflexivity.
    + left. exists c, m. split; [constructor|]. left. exact X.
    + right. eexists _, _. split; [exact A|]. split; [reflexivity|]. split; [apply C; reflexivity|exact B].
  - destruct SV as [X|[X1 X2]].
    + left. exists c, m. split; [constructor|]. left.
      exists (XUpcall (Base.u "Out of heap space")), (u_world W u0). split; [right; left; reflexivity|].
      eapply served_fails; try eassumption; reflexivity.
    + right. exists c, m. split; [constructor|]. eapply served_fails; eassumption.
Qed.

Lemma refs_dec (gs : list given) : (exists k t, In (GRef k t) gs) \/ ~ (exists k t, In (GRef k t) gs).
Proof.
  induction gs as [|g gs IH]; [right; intros (k & t & [])|].
  destruct IH as [(k & t & IN)|NO]; [left; exists k, t; right; exact IN|].
  destruct g as [d|tg|k t]; [right|right|left; exists k, t; left; reflexivity];
    intros (k & t & [E|IN]); try discriminate E; apply NO; exists k, t; exact IN.
Qed.
Lemma host_command' ls c m s k md first gs r s' idx :
  assoc mds k = Some md -> md_return md = None -> nth_error ups (N.to_nat idx) = Some k ->
  fetched img (c_pc c) (upcall_instr md idx first) -> gives_at img (c_pc c) (length gs) -> knowing ls -> holding ls None c m s ->
  (64 + N.of_nat (id_len (ls_locals ls)) <= first < 256)%N -> laid ls cs c m (reg_index c first) gs ->
  ((exists k' t, In (GRef k' t) gs) -> 0 < length (c_regs c)) -> calls k gs s r s' ->
  Call_Proofs.stuck powf img upcall c m \/
  match r with
  | Ok (Some _) => True
  | Ok None => exists c' m', go powf img upcall c m c' m' /\ c_pc c' = S (c_pc c) /\ holding ls None c' m' s'
  | Err e => Call_Proofs.gfails powf img upcall c m e (world s')
  end.
Proof.
  intros MD RT UP F GA K HD RR LA GR CC. pose proof (hd_yield _ _ _ _ _ _ _ _ HD) as Y. pose proof (hd_fp _ _ _ _ _ _ _ _ HD) as FP.
  destruct (ob_command _ _ _ _ _ _ OB L hidden ls c m s idx k md first (c_pc c) gs r s' UP MD RT (kn_ok _ _ K) HD RR LA GA GR CC) as (u0 & U & SV).
  assert (SW : shares_well ls None gs) by (intros v r0 p _ _; discriminate).
  destruct r as [v|e].
  - destruct (served_on ls None c m s md idx first None gs v s' u0 (c_fp c) first K HD F U SW) as [X|(A & B & C)]; auto.
    + intros q t' E. discriminate E.
    + left. exists c, m. split; [constructor|]. left. exact X.
    + right. destruct v as [d|]; [exact Logic.I|]. eexists _, _. split; [eapply go_reach; [exact A|lia|exact FP]|].
      split; [reflexivity|exact B].
  - destruct SV as [X|[X1 X2]].
    + left. exists c, m. split; [constructor|]. left.
      exists (XUpcall (Base.u "Out of heap space")), (u_world W u0). split; [right; left; reflexivity|].
      eapply served_fails; try eassumption; reflexivity.
    + right. exists c, m. split; [constructor|]. eapply served_fails; eassumption.
Qed.
Lemma host_command ls c m s k md first gs r s' idx :
  assoc mds k = Some md -> md_return md = None -> nth_error ups (N.to_nat idx) = Some k ->
  fetched img (c_pc c) (upcall_instr md idx first) -> gives_at img (c_pc c) (length gs) -> knowing ls -> holding ls None c m s ->
  (64 + N.of_nat (id_len (ls_locals ls)) <= first < 256)%N -> laid ls cs c m (reg_index c first) gs ->
  calls k gs s r s' ->
  Call_Proofs.stuck powf img upcall c m \/
  match r with
  | Ok (Some _) => True
  | Ok None => exists c' m', go powf img upcall c m c' m' /\ c_pc c' = S (c_pc c) /\ holding ls None c' m' s'
  | Err e => Call_Proofs.gfails powf img upcall c m e (world s')
  end.
Proof.
  intros MD RT UP F GA K HD RR LA CC. pose proof (hd_yield _ _ _ _ _ _ _ _ HD) as Y. pose proof (hd_fp _ _ _ _ _ _ _ _ HD) as FP.
  destruct (Nat.eq_dec (length (c_regs c)) 0) as [NR|NR].
  { destruct (refs_dec gs) as [RF|RF].
    - left. exists c, m. split; [constructor|]. right.
      exists idx, first, (c_pc c), (Vm_Model.next_pc c), (m : heap). split; [eapply asks_at; eassumption|]. rewrite NR. apply Nat.le_0_l.
    - eapply host_command'; eauto. intros X. contradiction. }
  eapply host_command'; eauto. intros _. clear -NR. lia.
Qed.
End Host.
