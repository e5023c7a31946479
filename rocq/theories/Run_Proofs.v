(** The machine with its host, and the symbol tables while they grow. *)
From Verif Require Import Base Bytecode_Model Bytecode_Spec Bytecode_Proofs Mem_Model Mem_Spec Mem_Proofs Num_Model
  Vm_Model Vm_Spec Vm_Proofs Ids_Model Ids_Spec Ids_Proofs Ast_Model Syms_Model Syms_Proofs Codegen_Model
  Codegen_Proofs Exprs_Model Exprs_Proofs Top_Model Top_Proofs Layout_Proofs Eval_Spec Eval_Proofs Args_Spec Call_Spec.

(** * Pending yields *)

Section Yield.
Variable powf : N -> N -> N.
Variable img : image.
Context {W : Type}.
Variable upcall : N -> N -> nat -> image -> ctx -> heap -> W -> option (upcall_result W).
Hypothesis up_scope : forall idx first pc c c' h w, c_regs c = c_regs c' -> c_fp c = c_fp c' ->
  upcall idx first pc img c h w = upcall idx first pc img c' h w.

Definition yeq (a b : ctx) : Prop := set_yield a false = set_yield b false.
Definition req (a b : step_result) : Prop :=
  match a, b with
  | RNext c h, RNext c' h' => yeq c c' /\ h = h'
  | RStop s c h, RStop s' c' h' => s = s' /\ yeq c c' /\ h = h'
  | RPanic, RPanic => True
  | _, _ => False
  end.

Lemma yeq_set a b : yeq a b -> exists y, b = set_yield a y.
Proof. intros H. exists (c_yield b). destruct a, b. unfold yeq, set_yield in *. cbn in *. congruence. Qed.
Lemma yeq_refl a : yeq a a.
Proof. reflexivity. Qed.
Lemma yeq_sym a b : yeq a b -> yeq b a.
Proof. unfold yeq. congruence. Qed.
Lemma yeq_trans a b c : yeq a b -> yeq b c -> yeq a c.
Proof. unfold yeq. congruence. Qed.

Lemma read_dims_y c y first n : forall i, read_dims (set_yield c y) first i n = read_dims c first i n.
Proof.
  induction n as [|n IH]; intros i; [reflexivity|]. cbn [read_dims].
  destruct (register_local _); [|reflexivity]. rewrite IH. reflexivity.
Qed.
Lemma read_subs_y c y first n : forall i, read_subs (set_yield c y) first i n = read_subs c first i n.
Proof.
  induction n as [|n IH]; intros i; [reflexivity|]. cbn [read_subs].
  destruct (register_local _); [|reflexivity]. rewrite IH. reflexivity.
Qed.
Lemma resolve_y c y arr first h : resolve_array_index (set_yield c y) arr first h = resolve_array_index c arr first h.
Proof.
  unfold resolve_array_index. change (get_reg (set_yield c y) arr) with (get_reg c arr).
  destruct (ptr_from _); [|reflexivity]. destruct (heap_index _); [|reflexivity].
  destruct (heap_get h _) as [[]|]; try reflexivity. rewrite read_subs_y. reflexivity.
Qed.

Ltac ytac :=
  repeat match goal with |- req (match ?q with _ => _ end) _ => destruct q end;
  cbn [req]; first [exact I | split; [reflexivity|split; reflexivity] | split; reflexivity].

Lemma dispatch_y c y h i : req (dispatch powf img c h i) (dispatch powf img (set_yield c y) h i).
Proof.
  destruct i as [o d a b|o r|d t|d p f|reg tg|tg|tg|r tg|d i|d i|d t r|d s| | |m tg|i r|i r|]; cbn [dispatch];
    unfold set_exception, push_frame, jump_to;
    change (c_pc (set_yield c y)) with (c_pc c); change (c_fp (set_yield c y)) with (c_fp c);
    change (c_max (set_yield c y)) with (c_max c); change (c_stack (set_yield c y)) with (c_stack c);
    repeat match goal with |- context [get_reg (set_yield c y) ?r] => change (get_reg (set_yield c y) r) with (get_reg c r) end.
  - destruct o; cbn [do_op3]; unfold do_binary_double_op, do_binary_double_predicate_op, do_binary_integer_op,
      do_binary_integer_predicate_op, do_binary_boolean_op, do_binary_text_op, do_concat, do_load_array, do_store_array, set_exception;
      rewrite ?resolve_y;
      repeat match goal with |- context [get_reg (set_yield c y) ?r] => change (get_reg (set_yield c y) r) with (get_reg c r) end;
      ytac.
  - destruct o; cbn [do_op1]; unfold set_exception;
      repeat match goal with |- context [get_reg (set_yield c y) ?r] => change (get_reg (set_yield c y) r) with (get_reg c r) end;
      ytac.
  - ytac.
  - unfold do_alloc_array, set_exception. cbv zeta. rewrite read_dims_y. ytac.
  - destruct (c_max c <=? length (c_stack c)); ytac.
  - destruct (c_max c <=? length (c_stack c)); ytac.
  - cbn [req]. destruct (_ <=? _); split; reflexivity.
  - destruct (_ =? _)%N; [destruct (_ <=? _)|]; ytac.
  - ytac.
  - ytac.
  - ytac.
  - ytac.
  - ytac.
  - unfold do_return, set_exception. change (c_stack (set_yield c y)) with (c_stack c).
    change (get_reg (set_yield c y) 64) with (get_reg c 64). ytac.
  - ytac.
  - ytac.
  - ytac.
  - ytac.
Qed.
Lemma req_sym a b : req a b -> req b a.
Proof. destruct a, b; cbn [req]; intuition auto using yeq_sym. Qed.
Lemma fetch_y a b h : yeq a b -> req (fetch_exec powf img a h) (fetch_exec powf img b h).
Proof.
  intros Y. destruct (yeq_set _ _ Y) as [y ->]. unfold fetch_exec. change (c_pc (set_yield a y)) with (c_pc a).
  destruct (nth_error _ _) as [w|]; [|exact I]. destruct (decode w); [|exact I]. apply dispatch_y.
Qed.
Lemma yeq_clear a b : yeq a b -> c_yield b = false -> set_yield a false = b.
Proof. intros Y E. rewrite Y. destruct b; cbn in *. subst. reflexivity. Qed.

(** Steps of a machine that never yields, with a host that serves its calls. *)
Inductive gsteps : ctx -> mem W -> ctx -> mem W -> Prop :=
| g_refl c m : gsteps c m c m
| g_step c (m : mem W) c1 h1 c2 m2 : step powf img c m = RNext c1 h1 ->
    gsteps (set_yield c1 false) (mkMem h1 (m_world m)) c2 m2 -> gsteps c m c2 m2
| g_host c (m : mem W) idx first pc c1 h1 u c2 m2 : asks powf img c m idx first pc c1 h1 ->
    upcall idx first pc img c1 h1 (m_world m) = Some u -> u_failure W u = None ->
    gsteps (set_yield (set_regs c1 (u_regs W u)) false) (mkMem (u_heap W u) (u_world W u)) c2 m2 -> gsteps c m c2 m2.

Lemma gsteps_trans c m c1 m1 c2 m2 : gsteps c m c1 m1 -> gsteps c1 m1 c2 m2 -> gsteps c m c2 m2.
Proof. induction 1; intros; [assumption| |]; [eapply g_step|eapply g_host]; eauto. Qed.
Lemma gsteps_one c (m : mem W) c1 h1 : step powf img c m = RNext c1 h1 ->
  gsteps c m (set_yield c1 false) (mkMem h1 (m_world m)).
Proof. intros. eapply g_step; [eassumption|constructor]. Qed.

Definition meta_covers : Prop := length (i_code img) <= length (i_meta img).

Lemma stmt_start_some pc w : meta_covers -> nth_error (i_code img) pc = Some w -> exists b, stmt_start img pc = Some b.
Proof.
  intros M E. unfold stmt_start. assert (pc < length (i_code img)) by (apply nth_error_Some; congruence).
  unfold meta_covers in M. destruct (nth_error (i_meta img) pc) eqn:K; [eauto|]. apply nth_error_None in K. lia.
Qed.

(** A machine with a pending yield gets to do the same step, perhaps after yielding. *)
Lemma catch_up c (m : mem W) d r : meta_covers -> c_yield c = false -> yeq d c -> step powf img c m = r -> r <> RPanic ->
  exists d1, runs powf upcall img d m d1 m /\ yeq d1 c /\ req (step powf img d1 m) r.
Proof.
  intros M Y E S0 NP. destruct (c_yield d) eqn:Yd.
  2:{ assert (d = c) as -> by (rewrite <- (yeq_clear _ _ E Y); destruct d; cbn in *; subst; reflexivity).
      exists c. split; [constructor|split; [reflexivity|]]. rewrite S0. destruct r; cbn [req]; auto; repeat split. }
  assert (c_pc d = c_pc c) as P by (rewrite <- (yeq_clear _ _ E Y); reflexivity).
  assert (exists w, nth_error (i_code img) (c_pc d) = Some w) as [w Ew].
  { rewrite P. unfold step in S0. rewrite Y in S0. unfold fetch_exec in S0. destruct (nth_error _ _); [eauto|congruence]. }
  destruct (stmt_start_some _ _ M Ew) as [b B]. destruct b.
  - exists c. split; [|split; [reflexivity|]].
    + eapply runs_yield; [|constructor]. unfold step. rewrite Yd, B. rewrite (yeq_clear _ _ E Y). reflexivity.
    + rewrite S0. destruct r; cbn [req]; auto; repeat split.
  - exists d. split; [constructor|split; [exact E|]]. unfold step at 1. rewrite Yd, B.
    unfold step in S0. rewrite Y in S0. rewrite <- S0. apply fetch_y, E.
Qed.

Lemma runs_trans c m c1 m1 c2 m2 : runs powf upcall img c m c1 m1 -> runs powf upcall img c1 m1 c2 m2 ->
  runs powf upcall img c m c2 m2.
Proof. induction 1; intros; eauto using runs_step, runs_yield, runs_host. Qed.

Lemma yeq_regs a b : yeq a b -> c_regs a = c_regs b /\ c_fp a = c_fp b.
Proof. intros Q. destruct (yeq_set _ _ Q) as [y ->]. split; reflexivity. Qed.
Lemma yeq_set_regs a b r : yeq a b -> yeq (set_regs a r) (set_regs b r).
Proof. intros Q. destruct (yeq_set _ _ Q) as [y ->]. reflexivity. Qed.

Lemma catch_asks c (m : mem W) d idx first pc c1 h1 : meta_covers -> c_yield c = false -> yeq d c ->
  asks powf img c m idx first pc c1 h1 ->
  exists d1 c2, runs powf upcall img d m d1 m /\ yeq d1 c /\ asks powf img d1 m idx first pc c2 h1 /\ yeq c2 c1.
Proof.
  intros M Y Q [E|E]; destruct (catch_up _ _ _ _ M Y Q E ltac:(discriminate)) as (d1 & R1 & Q1 & S1);
    destruct (step powf img d1 m) as [|s3 c3 h3|] eqn:S3; cbn [req] in S1; try contradiction; destruct S1 as (-> & Q3 & ->);
    exists d1, c3; split; [exact R1|split; [exact Q1|split; [left; exact S3|exact Q3]]|exact R1|split; [exact Q1|split; [right; exact S3|exact Q3]]].
Qed.

Lemma lift_steps c m c' m' : meta_covers -> gsteps c m c' m' -> c_yield c = false -> forall d, yeq d c ->
  exists d', runs powf upcall img d m d' m' /\ yeq d' c'.
Proof.
  intros M H. induction H as [c m|c m c1 h1 c2 m2 E H IH|c m idx first pc c1 h1 u c2 m2 E UP UF H IH]; intros Y d Q.
  - exists d. split; [constructor|exact Q].
  - destruct (catch_up _ _ _ _ M Y Q E ltac:(discriminate)) as (d1 & R1 & Q1 & S1).
    destruct (step powf img d1 m) as [c3 h3| |] eqn:S3; cbn [req] in S1; try contradiction. destruct S1 as [Q3 ->].
    destruct (IH eq_refl c3 Q3) as (d' & R2 & Q2). exists d'. split; [|exact Q2].
    eapply runs_trans; [exact R1|]. eapply runs_step; eassumption.
  - destruct (catch_asks _ _ _ _ _ _ _ _ M Y Q E) as (d1 & c3 & R1 & Q1 & A & Q3).
    destruct (IH eq_refl (set_regs c3 (u_regs W u)) (yeq_set_regs _ _ _ Q3)) as (d' & R2 & Q2). exists d'. split; [|exact Q2].
    eapply runs_trans; [exact R1|]. eapply runs_host; [exact A| |exact UF|exact R2].
    destruct (yeq_regs _ _ Q3) as [K1 K2]. rewrite (up_scope _ _ _ _ _ _ _ K1 K2). exact UP.
Qed.

Lemma lift_fails c m e w d : meta_covers -> c_yield c = false -> yeq d c -> fails powf upcall img c m e w ->
  exists d1, runs powf upcall img d m d1 m /\ yeq d1 c /\ fails powf upcall img d1 m e w.
Proof.
  intros M Y Q [pc x c1 h1 E|idx first pc c1 h1 u p msg E UP UF].
  - destruct (catch_up _ _ _ _ M Y Q E ltac:(discriminate)) as (d1 & R1 & Q1 & S1).
    destruct (step powf img d1 m) as [|s3 c3 h3|] eqn:S3; cbn [req] in S1; try contradiction. destruct S1 as (-> & _).
    exists d1. split; [exact R1|split; [exact Q1|]]. eapply F_machine, S3.
  - destruct (catch_asks _ _ _ _ _ _ _ _ M Y Q E) as (d1 & c3 & R1 & Q1 & A & Q3).
    exists d1. split; [exact R1|split; [exact Q1|]]. eapply F_host; [exact A| |exact UF].
    destruct (yeq_regs _ _ Q3) as [K1 K2]. rewrite (up_scope _ _ _ _ _ _ _ K1 K2). exact UP.
Qed.
Lemma lift_gives_up c m d : meta_covers -> c_yield c = false -> yeq d c -> gives_up powf upcall img c m ->
  exists d1, runs powf upcall img d m d1 m /\ yeq d1 c /\ gives_up powf upcall img d1 m.
Proof.
  intros M Y Q [(e & w & O & F)|(idx & first & pc & c1 & h1 & A & LE)].
  - destruct (lift_fails _ _ _ _ _ M Y Q F) as (d1 & R1 & Q1 & F1). exists d1. split; [exact R1|split; [exact Q1|]].
    left. exists e, w. auto.
  - destruct (catch_asks _ _ _ _ _ _ _ _ M Y Q A) as (d1 & c3 & R1 & Q1 & A1 & Q3).
    exists d1. split; [exact R1|split; [exact Q1|]]. right. exists idx, first, pc, c3, h1. split; [exact A1|].
    destruct (yeq_regs _ _ Q1) as [K1 K2]. unfold reg_index. rewrite K1, K2. exact LE.
Qed.

Lemma gsteps_no_yield c m c' m' : gsteps c m c' m' -> c_yield c = false -> c_yield c' = false.
Proof. induction 1; auto. Qed.

Lemma set_yield_same c : c_yield c = false -> set_yield c false = c.
Proof. destruct c; cbn; intros ->; reflexivity. Qed.
Definition ykept (y : bool) (r : step_result) : Prop :=
  match r with RNext c1 _ => y = true -> c_yield c1 = true | _ => True end.
Ltac yktac :=
  repeat match goal with |- ykept _ (match ?q with _ => _ end) => destruct q end; cbn [ykept]; first [exact I | exact (fun H => H) | exact (fun _ => eq_refl)].
Lemma dispatch_yk c h i : ykept (c_yield c) (dispatch powf img c h i).
Proof.
  destruct i as [o d a b|o r|d t|d p f|reg tg|tg|tg|r tg|d i|d i|d t r|d s| | |m tg|i r|i r|]; cbn [dispatch];
    unfold set_exception, push_frame, jump_to.
  - destruct o; cbn [do_op3]; unfold do_binary_double_op, do_binary_double_predicate_op, do_binary_integer_op,
      do_binary_integer_predicate_op, do_binary_boolean_op, do_binary_text_op, do_concat, do_load_array, do_store_array, set_exception;
      yktac.
  - destruct o; cbn [do_op1]; unfold set_exception; cbv zeta; yktac.
  - yktac.
  - unfold do_alloc_array, set_exception. cbv zeta. yktac.
  - destruct (c_max c <=? length (c_stack c)); cbn [ykept]; [exact I|exact (fun H => H)].
  - destruct (c_max c <=? length (c_stack c)); cbn [ykept]; [exact I|exact (fun H => H)].
  - destruct (_ <=? _); cbn [ykept]; auto.
  - destruct (_ =? _)%N; [destruct (_ <=? _)|]; cbn [ykept]; auto.
  - yktac.
  - yktac.
  - yktac.
  - yktac.
  - yktac.
  - unfold do_return, set_exception. yktac.
  - yktac.
  - yktac.
  - yktac.
  - yktac.
Qed.
Lemma step_yk c h : ykept (c_yield c) (step powf img c h).
Proof.
  assert (ykept (c_yield c) (fetch_exec powf img c h)) as F.
  { unfold fetch_exec. destruct (nth_error _ _) as [w|]; [|exact I]. destruct (decode w); [|exact I]. apply dispatch_yk. }
  unfold step. destruct (c_yield c) eqn:Y; [|exact F]. destruct (stmt_start img (c_pc c)) as [[|]|]; try exact I. exact F.
Qed.
Lemma steps_yk c h c' h' : steps powf img c h c' h' -> c_yield c = true -> c_yield c' = true.
Proof.
  induction 1 as [c h|c h c1 h1 c2 h2 E H IH]; intros Y; [assumption|]. apply IH.
  pose proof (step_yk c h) as K. rewrite E in K. exact (K Y).
Qed.
Lemma from_steps c h c' h' w : steps powf img c h c' h' -> c_yield c' = false -> gsteps c (mkMem h w) c' (mkMem h' w).
Proof.
  induction 1 as [c h|c h c1 h1 c2 h2 E H IH]; intros Y; [constructor|].
  eapply g_step; [exact E|]. rewrite set_yield_same; [apply IH, Y|].
  destruct (c_yield c1) eqn:K; [|reflexivity]. rewrite (steps_yk _ _ _ _ H K) in Y. discriminate Y.
Qed.
End Yield.

(** * Lookups in growing tables *)

Lemma ext_refl a : ext a a.
Proof. split; [|split; [|auto]]; exists []; rewrite app_nil_r; reflexivity. Qed.
Lemma ext_trans a b c : ext a b -> ext b c -> ext a c.
Proof.
  intros ([n E] & [m F] & U & V) ([n' E'] & [m' F'] & U' & V'). split; [|split; [|split; [congruence|auto]]].
  - exists (n ++ n'). rewrite E', E. apply app_assoc_reverse.
  - exists (m ++ m'). rewrite F', F. apply app_assoc_reverse.
Qed.
Lemma ext_grows a b : lgrows a b -> ext a b.
Proof. intros [[E _] [F _] U V _]. split; [|split; [|split]]; assumption. Qed.
Lemma ext_thaw a t : ext a (thaw a t).
Proof. apply ext_grows, lgrows_thaw. Qed.

Lemma wf_prefix {K V} (a b : @idmap K V) ord : wf (a ++ b) ord -> exists ord', wf a ord'.
Proof.
  intros (W1 & W2 & W3). exists (map fst a). split; [reflexivity|]. rewrite map_app in *. subst ord. split.
  - rewrite app_length, seq_app, !map_app in W2. rewrite !map_length in *.
    apply (f_equal (firstn (length a))) in W2. rewrite !firstn_app, !map_length, !seq_length, !Nat.sub_diag in W2.
    cbn [firstn] in W2. rewrite !app_nil_r in W2. rewrite !firstn_all2 in W2; rewrite ?map_length, ?seq_length; auto.
  - eapply NoDup_prefix; eassumption.
Qed.
Lemma tables_prefix a b : ext a b -> tables_ok b -> tables_ok a.
Proof.
  intros ([n E] & [m F] & _) [[o1 W1] [o2 W2]]. rewrite E in W1. rewrite F in W2.
  split; eapply wf_prefix; eassumption.
Qed.
Lemma get_ext {V} (a n : @idmap ustr V) k e : id_get ustr_eqb a k = Some e -> id_get ustr_eqb (a ++ n) k = Some e.
Proof.
  induction a as [|[k' e'] a IH]; cbn; [discriminate|]. destruct (ustr_eqb k' k); auto.
Qed.
Lemma shadow_prefix a b : ext a b -> no_shadowing b -> no_shadowing a.
Proof.
  intros ([n E] & [m F] & _) NS k. destruct (id_get ustr_eqb (ls_locals a) k) eqn:A; [|auto].
  destruct (id_get ustr_eqb (gs_vars (ls_global a)) k) eqn:B; [|auto].
  destruct (NS k) as [K|K]; [rewrite E in K; rewrite (get_ext _ _ _ _ A) in K|
                             rewrite F in K; rewrite (get_ext _ _ _ _ B) in K]; discriminate K.
Qed.

Definition undefined (r : res sym_error (N * proto)) : Prop :=
  match r with Err (SeUndefined _ _) => True | _ => False end.

Lemma lookup_ext a b v : ext a b -> no_shadowing b -> ~ undefined (get_local_or_global a v) ->
  get_local_or_global b v = get_local_or_global a v.
Proof.
  intros ([n E] & [m F] & _) NS U. unfold get_local_or_global, get_global, get_var in *. rewrite E, F.
  destruct (id_get ustr_eqb (ls_locals a) (symkey (vr_name v))) as [[p i]|] eqn:A.
  - rewrite (get_ext _ _ _ _ A). destruct (accepts _ _); [destruct (register_local i)|]; reflexivity.
  - destruct (id_get ustr_eqb (gs_vars (ls_global a)) (symkey (vr_name v))) as [[p i]|] eqn:B; [|destruct U; exact I].
    destruct (NS (symkey (vr_name v))) as [K|K]; rewrite ?E, ?F in K.
    + rewrite K, (get_ext _ _ _ _ B). reflexivity.
    + rewrite (get_ext _ _ _ _ B) in K. discriminate K.
Qed.

Lemma declared_lookup a b v r t : ext a b -> no_shadowing b -> get_local_or_global a v = Ok (r, PScalar t) ->
  declared b (ascii_upper (vr_name v)) = Some t.
Proof.
  intros X NS H. assert (~ undefined (get_local_or_global a v)) as U by (rewrite H; intros K; exact K).
  rewrite <- (lookup_ext _ _ _ X NS U) in H. clear U.
  unfold get_local_or_global, get_global, get_var in H. unfold declared. change ascii_upper with symkey in *.
  destruct (id_get ustr_eqb (ls_locals b) (symkey (vr_name v))) as [[p i]|] eqn:A.
  - destruct (accepts _ _); [|discriminate H]. destruct (register_local i); [|discriminate H].
    apply Ok_pair in H as [_ ->]. reflexivity.
  - destruct (id_get ustr_eqb (gs_vars (ls_global b)) (symkey (vr_name v))) as [[p i]|]; [|discriminate H].
    destruct (accepts _ _); [|discriminate H]. destruct (register_global i); [|discriminate H].
    apply Ok_pair in H as [_ ->]. reflexivity.
Qed.

Lemma wf_inj {V} (m : @idmap ustr V) ord k k' p p' i : wf m ord -> id_get ustr_eqb m k = Some (p, i) ->
  id_get ustr_eqb m k' = Some (p', i) -> k = k'.
Proof.
  intros W A B. apply (wf_get_pos _ ustr_eqb_eq ustr_dec _ _ _ _ _ W) in A. apply (wf_get_pos _ ustr_eqb_eq ustr_dec _ _ _ _ _ W) in B.
  congruence.
Qed.

Lemma lookup_cases ls v r p : get_local_or_global ls v = Ok (r, p) ->
  (exists i, id_get ustr_eqb (ls_locals ls) (symkey (vr_name v)) = Some (p, i) /\ r = (i + 64)%N) \/
  (id_get ustr_eqb (ls_locals ls) (symkey (vr_name v)) = None /\
   exists i, id_get ustr_eqb (gs_vars (ls_global ls)) (symkey (vr_name v)) = Some (p, i) /\ r = i /\ (i < 64)%N).
Proof.
  unfold get_local_or_global, get_global, get_var.
  destruct (id_get ustr_eqb (ls_locals ls) (symkey (vr_name v))) as [[p1 i1]|]; intros A.
  - left. destruct (accepts _ _); [|discriminate A]. unfold register_local, max_global in A.
    destruct (_ <=? _)%N; [|discriminate A]. apply Ok_pair in A as [<- <-]. eauto.
  - right. split; [reflexivity|].
    destruct (id_get ustr_eqb (gs_vars _) (symkey (vr_name v))) as [[p1 i1]|]; [|discriminate A].
    destruct (accepts _ _); [|discriminate A]. unfold register_global, max_global in A.
    destruct (N.ltb_spec i1 64); [|discriminate A]. apply Ok_pair in A as [<- <-]. eauto.
Qed.

Lemma lookup_inj ls v v' r p p' : tables_ok ls -> get_local_or_global ls v = Ok (r, p) ->
  get_local_or_global ls v' = Ok (r, p') -> ascii_upper (vr_name v) = ascii_upper (vr_name v').
Proof.
  intros [[o1 W1] [o2 W2]] A B. change ascii_upper with symkey.
  destruct (lookup_cases _ _ _ _ A) as [(i & A1 & ->)|(_ & i & A1 & -> & L1)];
  destruct (lookup_cases _ _ _ _ B) as [(j & B1 & E)|(_ & j & B1 & E & L2)]; try lia.
  - assert (i = j) by lia. subst j. exact (wf_inj _ _ _ _ _ _ _ W1 A1 B1).
  - subst j. exact (wf_inj _ _ _ _ _ _ _ W2 A1 B1).
Qed.

(** Another way to write the same variable finds the same register or is in error. *)
Lemma lookup_same ls v v' r p : ascii_upper (vr_name v) = ascii_upper (vr_name v') ->
  get_local_or_global ls v = Ok (r, p) ->
  get_local_or_global ls v' = Ok (r, p) \/ exists e, get_local_or_global ls v' = Err e /\ ~ undefined (Err e).
Proof.
  change ascii_upper with symkey. intros E. unfold get_local_or_global, get_global, get_var. rewrite <- E.
  destruct (id_get ustr_eqb (ls_locals ls) (symkey (vr_name v))) as [[p1 i1]|].
  - destruct (accepts v _); [|intros K; discriminate K]. destruct (register_local i1) as [r0|]; [|intros K; discriminate K]. intros H.
    destruct (accepts v' _); [left; exact H|]. right. exists (SeIncompatible v'). split; [reflexivity|]. intros K; exact K.
  - destruct (id_get ustr_eqb (gs_vars _) (symkey (vr_name v))) as [[p1 i1]|]; [|intros K; discriminate K].
    destruct (accepts v _); [|intros K; discriminate K]. destruct (register_global i1) as [r0|]; [|intros K; discriminate K]. intros H.
    destruct (accepts v' _); [left; exact H|]. right. exists (SeIncompatible v'). split; [reflexivity|]. intros K; exact K.
Qed.

