(** Proofs about the [READ] and [RESTORE] commands. *)
From Coq Require Import String.
From Verif Require Import Base Bytecode_Model Mem_Model Mem_Spec Num_Model Vm_Model Vm_Spec Ids_Model Ast_Model Syms_Model Codegen_Model
  Exprs_Model Top_Model Args_Spec Eval_Spec Eval_Proofs Call_Spec Host_Model Exec_Spec Data_Model Data_Spec Input_Model Input_Proofs Bytecode_Proofs
  Read_Model Read_Spec.
Local Open Scope string_scope.
Local Open Scope list_scope.
Local Open Scope nat_scope.

Definition data_ok (data : list (option cdatum)) : Prop := forall z, In (Some (CInt z)) data -> in_i32 z.

(** What is stored is of the type of the variable. *)
Lemma assign_spec arg t d : match assign_datum arg t d with
  | Ok v => accepts_value t d v /\ cdatum_etype v = t
  | Err e => (forall v, ~ accepts_value t d v)
  end.
Proof.
  destruct t, d; cbn [assign_datum accepts_value cdatum_etype];
    lazymatch goal with
    | |- context [double_to_integer ?b] => destruct (double_to_integer b) as [i|] eqn:E
    | |- forall v, ~ _ => intros v [E _]; discriminate E
    | |- (_ /\ _) /\ _ => split; [split; reflexivity|reflexivity]
    | |- _ => split; reflexivity
    end.
  - split; [exists i; split; [reflexivity|reflexivity]|reflexivity].
  - intros v (i & Q & _). discriminate Q.
Qed.
Lemma accepts_unique t d v w : accepts_value t d v -> accepts_value t d w -> v = w.
Proof.
  destruct t, d; cbn [accepts_value];
    lazymatch goal with
    | |- context [double_to_integer] => intros (i & Hi & ->) (j & Hj & ->); rewrite Hi in Hj; injection Hj as ->; reflexivity
    | |- context [f64_of_i32] => intros -> ->; reflexivity
    | |- _ => intros [_ ->] [_ ->]; reflexivity
    end.
Qed.
Lemma accepted_range t d v : accepts_value t d v -> (forall z, d = CInt z -> in_i32 z) -> forall z, v = CInt z -> in_i32 z.
Proof.
  intros A R z ->. destruct t, d; cbn [accepts_value] in A;
    lazymatch type of A with
    | exists i, _ => destruct A as (i & E & Q); injection Q as ->; eapply double_to_integer_range, E
    | _ = _ => discriminate A
    | _ => apply R; symmetry; apply A
    end.
Qed.
Lemma assign_value arg t d v : accepts_value t d v -> assign_datum arg t d = Ok v.
Proof.
  intros A. pose proof (assign_spec arg t d) as S0. destruct (assign_datum arg t d) as [w|e]; [|destruct (S0 v A)].
  f_equal. eapply accepts_unique; [apply S0|exact A].
Qed.
Lemma assign_misfit show arg t d : (forall v, ~ accepts_value t d v) -> exists e, assign_datum arg t d = Err e /\ read_message show d e = misfit show t d.
Proof.
  intros A. pose proof (assign_spec arg t d) as S0. destruct (assign_datum arg t d) as [v|e] eqn:E; [destruct (A v); apply S0|].
  exists e. split; [reflexivity|]. clear -E. destruct t, d; cbn [assign_datum] in E;
    lazymatch type of E with
    | context [double_to_integer ?b] => destruct (double_to_integer b); [discriminate E|]; injection E as <-; reflexivity
    | Ok _ = _ => discriminate E
    | _ => injection E as <-; reflexivity
    end.
Qed.
Lemma default_fits t : accepts_value t (default_datum t) (default_datum t).
Proof. destruct t; (split; reflexivity). Qed.

Lemma references_cons k t vars : references ((k, t) :: vars) =
  GTag (VPointer (match vars with [] => SepEnd | _ => SepLong end)) :: GRef k (Some t) :: references vars.
Proof. destruct vars as [|[k' t'] vars]; reflexivity. Qed.
Lemma references_length vars : length (references vars) = length vars + length vars.
Proof. induction vars as [|[k t] vars IH]; [reflexivity|]. rewrite references_cons. cbn [length]. rewrite IH. lia. Qed.
Lemma references_free vars g : In g (references vars) -> match g with GValue _ => False | _ => True end.
Proof.
  induction vars as [|[k t] vars IH]; [contradiction|]. rewrite references_cons. intros [<-|[<-|I]]; [exact Logic.I|exact Logic.I|]. apply IH, I.
Qed.

Lemma texts_kept_trans h h1 h2 : texts_kept h h1 -> texts_kept h1 h2 -> texts_kept h h2.
Proof. intros [_ A] [B C]. split; [exact B|]. auto. Qed.

Section Loop.
Variable show : N -> ustr.
Variable img : image.
Context {W : Type}.
Variables (L : lsyms) (hidden : N -> option hdatum) (ls : lsyms) (first : N) (gs : list given).
Hypothesis T : tables_ok (by_now L ls).
Hypothesis RR : (64 + N.of_nat (id_len (ls_locals ls)) <= first < 256)%N.
Hypothesis Free : forall g, In g gs -> match g with GValue _ => False | _ => True end.
Hypothesis DOK : data_ok (i_data img).

(** The arguments themselves are not in registers of variables. *)
Lemma arguments_apart (c : ctx) j : 64 <= c_fp c -> ~ referenced L ls c gs (reg_index c first + j).
Proof.
  intros FP (v & r & p & t & _ & G & E). pose proof (lookup_range (by_now L ls) v r _ (proj1 T) G) as RG. cbn [by_now ls_locals] in RG.
  unfold reg_index, register_to_parts, max_global in E.
  destruct (N.ltb_spec r 64), (N.ltb_spec first 64); cbn [fst snd] in E; clear -RG RR FP H H0 E; lia.
Qed.

Definition left_by (index : nat) (c : ctx) (m : mem W) (e : option ustr) (left left' : list (option cdatum)) (s1 : env W)
    (out : list N * heap * nat * option (option nat * ustr)) : Prop :=
  let '(regs, h, index', failure) := out in
  failure = Some (None, u "Out of heap space") \/
  index' = index + (length left - length left') /\
  match e with
  | Some msg => exists reg, failure = Some (reg, msg)
  | None => failure = None /\ length (c_regs c) <= length regs /\ texts_kept m h /\
      holding L hidden (i_constants img) ls None (set_regs c regs) (mkMem h (m_world m)) s1 /\
      forall i, ~ referenced L ls c gs i -> slot (set_regs c regs) i = slot c i
  end.

Lemma skipn_next {A} (l : list A) n x r : skipn n l = x :: r -> nth_error l n = Some x /\ skipn (S n) l = r.
Proof.
  revert n. induction l as [|a l IH]; intros [|n] E; cbn in E; try discriminate E; [injection E as -> ->; split; reflexivity|]. apply IH in E. exact E.
Qed.
Lemma skipn_end {A} (l : list A) n : skipn n l = [] -> nth_error l n = None.
Proof. intros E. apply nth_error_None. pose proof (skipn_length n l) as Q. rewrite E in Q. cbn in Q. lia. Qed.
Lemma read_into_shorter left vars (s : env W) e left' s1 : read_into show left vars s e left' s1 -> length left' <= length left.
Proof. induction 1; cbn [length]; lia. Qed.

Lemma read_vars_serves left vars (s : env W) e left' s1 : read_into show left vars s e left' s1 ->
  forall c m fuel reg index pre, vars <> [] -> gs = pre ++ references vars -> length pre = reg -> skipn index (i_data img) = left ->
  holding L hidden (i_constants img) ls None c m s -> laid L ls (i_constants img) c m (reg_index c first) gs ->
  0 < length (c_regs c) -> length vars <= fuel ->
  exists out, read_vars show fuel img first reg index c m = Some out /\ left_by index c m e left left' s1 out.
Proof.
  assert (STEP : forall k t vars0 d v left0 e left' s1 (s : env W),
    (forall z, d = CInt z -> in_i32 z) -> accepts_value t d v ->
    read_into show left0 vars0 (store s k (Scalar v)) e left' s1 ->
    (forall c m fuel reg index pre, vars0 <> [] -> gs = pre ++ references vars0 -> length pre = reg -> skipn index (i_data img) = left0 ->
       holding L hidden (i_constants img) ls None c m (store s k (Scalar v)) -> laid L ls (i_constants img) c m (reg_index c first) gs ->
       0 < length (c_regs c) -> length vars0 <= fuel ->
       exists out, read_vars show fuel img first reg index c m = Some out /\ left_by index c m e left0 left' s1 out) ->
    forall od left1 c m fuel reg index pre, (match od with Some x => x | None => default_datum t end) = d ->
    gs = pre ++ references ((k, t) :: vars0) -> length pre = reg -> left1 = od :: left0 -> skipn index (i_data img) = left1 ->
    holding L hidden (i_constants img) ls None c m s -> laid L ls (i_constants img) c m (reg_index c first) gs ->
    0 < length (c_regs c) -> length ((k, t) :: vars0) <= fuel ->
    exists out, read_vars show fuel img first reg index c m = Some out /\ left_by index c m e left1 left' s1 out).
  { intros k t vars0 d v left0 e' left'' s2 s0 IZ ACC RI IH od left1 c m fuel reg index pre OD GS PRE -> SK HD LA NE LE.
    destruct fuel as [|fuel]; [cbn [length] in LE; clear -LE; lia|]. cbn [length] in LE.
    destruct (skipn_next _ _ _ _ SK) as [NX SK'].
    rewrite references_cons in GS.
    assert (N0 : nth_error gs reg = Some (GTag (VPointer (match vars0 with [] => SepEnd | _ => SepLong end)))).
    { rewrite GS, nth_error_app2, <- PRE, Nat.sub_diag by (rewrite PRE; apply le_n). reflexivity. }
    assert (N1 : nth_error gs (S reg) = Some (GRef k (Some t))).
    { rewrite GS, nth_error_app2 by (rewrite PRE; apply Nat.le_succ_diag_r). rewrite <- PRE. replace (S (length pre) - length pre) with 1 by lia. reflexivity. }
    cbn [read_vars]. pose proof (LA _ _ N0) as TG. cbn [slot_holds] in TG. unfold scope_get at 1. rewrite TG.
    rewrite vararg_roundtrip. cbv zeta.
    assert (IV : forall z, v = CInt z -> in_i32 z) by (eapply accepted_range; eassumption).
    assert (TV : cdatum_etype v = t).
    { pose proof (assign_spec 0 t d) as AS. rewrite (assign_value 0 _ _ _ ACC) in AS. apply AS. }
    destruct (leaves_variable img L hidden ls c m s0 first gs (S reg) k t v (world s0) T HD RR LA (fun _ => NE) N1 TV IV) as (target & TP & LT & EN).
    rewrite TP, NX, OD, (assign_value _ _ _ _ ACC).
    destruct EN as [->|(h & raw & -> & SV)].
    { eexists. split; [reflexivity|]. left. reflexivity. }
    destruct (Nat.ltb_spec (N.to_nat target) (length (c_regs c))) as [_|GE]; [|clear -GE LT; lia].
    destruct SV as [(p0 & msg0 & FF & _)|(_ & LEN & TX & HD' & SL & _)]; [discriminate FF|]. cbn [u_regs u_heap u_world] in LEN, TX, HD', SL.
    set (c' := set_regs c (upd (c_regs c) (N.to_nat target) raw)) in *.
    assert (WS : world s0 = m_world m) by (symmetry; apply (hd_world _ _ _ _ _ _ _ _ HD)).
    assert (HD1 : holding L hidden (i_constants img) ls None c' (mkMem h (m_world m)) (store s0 k (Scalar v))).
    { rewrite <- WS. destruct s0 as [vs0 w0]. exact HD'. }
    assert (SL' : forall i, ~ referenced L ls c gs i -> slot c' i = slot c i).
    { intros i NR. apply SL; [intros reg0 t0 Q; discriminate Q|exact NR]. }
    pose proof (read_into_shorter _ _ _ _ _ _ RI) as SH.
    destruct vars0 as [|v1 vars1].
    - eexists. split; [reflexivity|]. right. inversion RI; subst. split; [cbn [length]; clear; lia|].
      split; [reflexivity|]. split; [exact LEN|]. split; [exact TX|]. split; [exact HD1|exact SL'].
    - assert (FP : 64 <= c_fp c) by apply (hd_fp _ _ _ _ _ _ _ _ HD).
      destruct (IH c' (mkMem h (m_world m)) fuel (S (S reg)) (S index) (pre ++ [GTag (VPointer SepLong); GRef k (Some t)])) as (out & RV & LB).
      + discriminate.
      + rewrite GS, <- app_assoc. reflexivity.
      + rewrite app_length, PRE. cbn [length]. clear; lia.
      + exact SK'.
      + exact HD1.
      + intros j g NJ. pose proof (LA j g NJ) as HJ. change (reg_index c' first) with (reg_index c first).
        rewrite SL' by (apply arguments_apart, FP). pose proof (Free g (nth_error_In _ _ NJ)) as FR.
        destruct g as [d0|tg|k0 t0]; [contradiction|exact HJ|exact HJ].
      + unfold c', set_regs. cbn [c_regs]. rewrite upd_length. exact NE.
      + clear -LE. lia.
      + exists out. split; [exact RV|]. destruct out as [[[regs h2] index'] failure]. destruct LB as [->|[IX LB]]; [left; reflexivity|right].
        split; [rewrite IX; cbn [length]; clear -SH; lia|]. destruct e' as [msg|]; [exact LB|]. destruct LB as (B1 & B2 & B3 & B4 & B5).
        split; [exact B1|]. split; [eapply Nat.le_trans; [exact LEN|exact B2]|]. split; [eapply texts_kept_trans; [exact TX|exact B3]|].
        split; [exact B4|]. intros i NR. rewrite <- (SL' i NR). apply B5. exact NR. }
  intros H. induction H as [left s|d left k t vars s v e left' s' ACC RI IH|left k t vars s v e left' s' DF RI IH|k t vars s|d left k t vars s MF];
    intros c m fuel reg index pre NV GS PRE SK HD LA NE LE.
  - contradiction.
  - refine (STEP k t vars d v left e left' s' s _ ACC RI IH (Some d) _ c m fuel reg index pre eq_refl GS PRE eq_refl SK HD LA NE LE). intros z ->. apply DOK.
    destruct (skipn_next _ _ _ _ SK) as [NX _]. eapply nth_error_In, NX.
  - assert (V : v = default_datum t) by (rewrite DF; destruct t; reflexivity).
    assert (AV : accepts_value t (default_datum t) v) by (rewrite V; apply default_fits).
    refine (STEP k t vars (default_datum t) v left e left' s' s _ AV RI IH None _ c m fuel reg index pre eq_refl GS PRE eq_refl SK HD LA NE LE).
    intros z Q. destruct t; try discriminate Q. injection Q as <-. split; discriminate.
  - destruct fuel as [|fuel]; [cbn [length] in LE; clear -LE; lia|]. rewrite references_cons in GS.
    assert (N0 : nth_error gs reg = Some (GTag (VPointer (match vars with [] => SepEnd | _ => SepLong end)))).
    { rewrite GS, nth_error_app2, <- PRE, Nat.sub_diag by (rewrite PRE; apply le_n). reflexivity. }
    assert (N1 : nth_error gs (S reg) = Some (GRef k (Some t))).
    { rewrite GS, nth_error_app2 by (rewrite PRE; apply Nat.le_succ_diag_r). rewrite <- PRE. replace (S (length pre) - length pre) with 1 by lia. reflexivity. }
    cbn [read_vars]. pose proof (LA _ _ N0) as TG. cbn [slot_holds] in TG. unfold scope_get at 1. rewrite TG.
    rewrite vararg_roundtrip. cbv zeta.
    destruct (leaves_variable img L hidden ls c m s first gs (S reg) k t (default_datum t) (world s) T HD RR LA (fun _ => NE) N1) as (target & TP & _).
    { destruct t; reflexivity. }
    { intros z Q. destruct t; try discriminate Q. injection Q as <-. split; discriminate. }
    rewrite TP, (skipn_end _ _ SK). eexists. split; [reflexivity|]. right. split; [cbn [length]; clear; lia|]. eexists. reflexivity.
  - destruct fuel as [|fuel]; [cbn [length] in LE; clear -LE; lia|]. rewrite references_cons in GS.
    assert (N0 : nth_error gs reg = Some (GTag (VPointer (match vars with [] => SepEnd | _ => SepLong end)))).
    { rewrite GS, nth_error_app2, <- PRE, Nat.sub_diag by (rewrite PRE; apply le_n). reflexivity. }
    assert (N1 : nth_error gs (S reg) = Some (GRef k (Some t))).
    { rewrite GS, nth_error_app2 by (rewrite PRE; apply Nat.le_succ_diag_r). rewrite <- PRE. replace (S (length pre) - length pre) with 1 by lia. reflexivity. }
    cbn [read_vars]. pose proof (LA _ _ N0) as TG. cbn [slot_holds] in TG. unfold scope_get at 1. rewrite TG.
    rewrite vararg_roundtrip. cbv zeta.
    destruct (leaves_variable img L hidden ls c m s first gs (S reg) k t (default_datum t) (world s) T HD RR LA (fun _ => NE) N1) as (target & TP & _).
    { destruct t; reflexivity. }
    { intros z Q. destruct t; try discriminate Q. injection Q as <-. split; discriminate. }
    destruct (skipn_next _ _ _ _ SK) as [NX _]. destruct (assign_misfit show (S reg) t d MF) as (er & AE & MS).
    rewrite TP, NX, AE, MS. eexists. split; [reflexivity|]. right. split; [cbn [length]; clear; lia|]. eexists. reflexivity.
Qed.
End Loop.

Section Host.
Variable show : N -> ustr.
Context {W : Type}.
Variable index_of : W -> nat.
Variable at_index : nat -> W -> W.
Variable ups : list ustr.
Variable img : image.
Variable shared : ustr -> bool.
Variable other : N -> N -> nat -> image -> ctx -> heap -> W -> option (upcall_result W).
Variable others : ustr -> list given -> env W -> res vm_error (option cdatum) -> env W -> Prop.
Variable mds : list (ustr * callable_md).
Hypothesis OB : host_obeys other img ups others mds shared.
Hypothesis DOK : data_ok (i_data img).
Notation host := (data_host show index_of at_index other ups).
Notation calls := (data_calls show index_of at_index (i_data img) others).

Lemma data_other idx k first pc c h w : nth_error ups (N.to_nat idx) = Some k -> k <> u "READ" -> k <> u "RESTORE" ->
  host idx first pc img c h w = other idx first pc img c h w.
Proof.
  intros UP N1 N2. unfold data_host. rewrite UP.
  destruct (ustr_eqb k (u "READ")) eqn:Q; [apply ustr_eqb_eq in Q; contradiction|].
  destruct (ustr_eqb k (u "RESTORE")) eqn:Q2; [apply ustr_eqb_eq in Q2; contradiction|reflexivity].
Qed.
Lemma data_other_md k md : assoc ((u "READ", read_md) :: (u "RESTORE", restore_md) :: mds) k = Some md ->
  k <> u "READ" -> k <> u "RESTORE" -> assoc mds k = Some md.
Proof.
  intros E N1 N2. cbn [assoc] in E. destruct (ustr_eqb (u "READ") k) eqn:Q; [apply ustr_eqb_eq in Q; congruence|].
  destruct (ustr_eqb (u "RESTORE") k) eqn:Q2; [apply ustr_eqb_eq in Q2; congruence|exact E].
Qed.

Lemma read_into_vals left vars (s : env W) e left' s1 k' : read_into show left vars s e left' s1 ->
  (forall t, ~ In (k', t) vars) -> vals s1 k' = vals s k' /\ world s1 = world s.
Proof.
  induction 1 as [| d left k t vars s v e left' s' ACC RI IH|left k t vars s v e left' s' DF RI IH| |]; intros NI; try (split; reflexivity).
  - destruct IH as [A B]; [intros t' I; apply (NI t'); right; exact I|]. rewrite A, B. split; [|reflexivity]. cbn [store vals].
    destruct (ustr_eqb k k') eqn:Q; [|reflexivity]. apply ustr_eqb_eq in Q. subst k'. destruct (NI t). left. reflexivity.
  - destruct IH as [A B]; [intros t' I; apply (NI t'); right; exact I|]. rewrite A, B. split; [|reflexivity]. cbn [store vals].
    destruct (ustr_eqb k k') eqn:Q; [|reflexivity]. apply ustr_eqb_eq in Q. subst k'. destruct (NI t). left. reflexivity.
Qed.
Lemma references_in k t vars : In (k, t) vars -> In (GRef k (Some t)) (references vars).
Proof.
  induction vars as [|[k' t'] vars IH]; [contradiction|]. rewrite references_cons. intros [E|I]; [injection E as -> ->; right; left; reflexivity|].
  right. right. apply IH, I.
Qed.

Lemma data_obeys : host_obeys host img ups calls ((u "READ", read_md) :: (u "RESTORE", restore_md) :: mds) shared.
Proof.
  constructor.
  - intros idx first pc c c' h w R F. unfold data_host, read_exec, restore_exec.
    assert (RV : forall fuel reg index c c' h, c_regs c = c_regs c' -> c_fp c = c_fp c' ->
      read_vars show fuel img first reg index c h = read_vars show fuel img first reg index c' h).
    { clear -first. induction fuel as [|fuel IH]; intros reg index c c' h R F; [reflexivity|]. cbn [read_vars]. unfold scope_get, slot.
      assert (E : reg_index c first = reg_index c' first) by (unfold reg_index; rewrite F; reflexivity). rewrite R, E.
      destruct (vararg_parse _) as [[sm|si ti|sep]|]; try reflexivity.
      destruct (tagged_ref_parse _) as [[tg vt]|]; [|reflexivity]. destruct (nth_error _ _) as [od|]; [|reflexivity].
      destruct (assign_datum _ _ _); [|reflexivity]. destruct (encode _ _) as [[h' raw]|]; [|reflexivity].
      destruct (_ <? _); [|reflexivity].
      assert (REC : forall r i h0, read_vars show fuel img first r i (set_regs c (upd (c_regs c') (N.to_nat tg) raw)) h0 =
        read_vars show fuel img first r i (set_regs c' (upd (c_regs c') (N.to_nat tg) raw)) h0) by (intros; apply IH; [reflexivity|exact F]).
      destruct sep; rewrite ?REC; reflexivity. }
    rewrite (RV _ _ _ c c' h R F), R, (ob_scope _ _ _ _ _ _ OB idx first pc c c' h w R F). reflexivity.
  - intros k gs s r s' k' H SH NG V. destruct H as [gs s r s' H|s|k gs s r s' _ _ O]; [|exact V|eapply (ob_locals _ _ _ _ _ _ OB); eassumption].
    destruct H as (vars & e & left' & s1 & _ & -> & RI & H). cbv zeta in RI, H. destruct e as [msg|].
    + destruct H as [_ ->]. exact V.
    + destruct H as [-> ->]. cbn [vals]. destruct (read_into_vals _ _ _ _ _ _ k' RI) as [A _]; [|rewrite A; exact V].
      intros t I. apply (NG eq_refl (Some t)). apply references_in, I.
  - intros L hidden ls skip c m s idx k md t ret pc gs r s' UP MD RT T HD RR DS LT LA GA CC.
    destruct CC as [gs s r s' H|s|k gs s r s' N1 N2 O].
    + cbn in MD. injection MD as <-. discriminate RT.
    + cbn in MD. injection MD as <-. discriminate RT.
    + rewrite (data_other _ _ _ _ _ _ _ UP N1 N2). eapply (ob_function _ _ _ _ _ _ OB); try eassumption. apply data_other_md; assumption.
  - intros L hidden ls c m s idx k md first pc gs r s' UP MD RT T HD RR LA GA GR CC.
    destruct CC as [gs s r s' H|s|k gs s r s' N1 N2 O].
    3:{ rewrite (data_other _ _ _ _ _ _ _ UP N1 N2). eapply (ob_command _ _ _ _ _ _ OB); try eassumption. apply data_other_md; assumption. }
    + destruct H as (vars & e & left' & s1 & NV & -> & RI & H). cbv zeta in RI, H.
      unfold data_host. rewrite UP. rewrite ustr_eqb_refl. unfold read_exec. destruct GA as (md0 & -> & LG). cbv zeta.
      assert (NE : 0 < length (c_regs c)).
      { apply GR. destruct vars as [|[k t] vars]; [contradiction|]. exists k, (Some t). apply references_in. left. reflexivity. }
      rewrite (hd_world _ _ _ _ _ _ _ _ HD).
      destruct (read_vars_serves show img L hidden ls first (references vars) T RR (references_free vars) DOK _ _ _ _ _ _ RI
        c m (length (m_args md0)) 0 (index_of (world s)) [] NV eq_refl eq_refl eq_refl HD LA NE) as ([[[regs h] index'] failure] & -> & LB).
      { rewrite LG, references_length. lia. }
      eexists. split; [reflexivity|]. destruct LB as [->|[IX LB]]; [left; eexists _, _; split; reflexivity|]. right. subst index'.
      destruct e as [msg|].
      * destruct H as [-> ->]. destruct LB as (reg & ->). split; [|reflexivity]. eexists _, _. split; reflexivity.
      * destruct H as [-> ->]. destruct LB as (-> & B2 & B3 & B4 & B5). cbn [u_failure u_regs u_heap u_world].
        split; [reflexivity|]. split; [exact B2|]. split; [exact B3|]. split; [|split; [intros i _; apply B5|exact Logic.I]].
        destruct B4 as [A1 A2 A3 A4 A5 A6 A7 A8 A9 A10]. constructor; auto.
    + unfold data_host. rewrite UP. change (ustr_eqb (u "RESTORE") (u "READ")) with false. rewrite ustr_eqb_refl. unfold restore_exec.
      eexists. split; [reflexivity|]. right. cbn [u_failure u_regs u_heap u_world]. split; [reflexivity|]. split; [apply le_n|].
      rewrite (hd_world _ _ _ _ _ _ _ _ HD).
      assert (SR : set_regs c (c_regs c) = c) by (destruct c; reflexivity). rewrite SR.
      split; [split; [apply (hd_heap _ _ _ _ _ _ _ _ HD)|auto]|]. split; [|split; [reflexivity|exact Logic.I]].
      destruct HD as [A1 A2 A3 A4 A5 A6 A7 A8 A9 A10]. constructor; auto.
Qed.
End Host.
