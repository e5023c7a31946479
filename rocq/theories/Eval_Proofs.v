(** Compiled expressions compute what [eval] says. *)
From Verif Require Import Base Bytecode_Model Bytecode_Spec Bytecode_Proofs Mem_Model Mem_Spec Mem_Proofs Num_Model Num_Spec Num_Proofs
  Vm_Model Vm_Spec Vm_Proofs Ids_Model Ids_Proofs Ast_Model Syms_Model Syms_Proofs Codegen_Model
  Codegen_Proofs Exprs_Model Exprs_Proofs Eval_Spec.

(** * Arithmetic *)

Lemma int_op_range o x y z : in_i32 x -> in_i32 y -> int_op o x y = Ok (CInt z) -> in_i32 z.
Proof.
  intros X Y. destruct (bitop_i32 x y X Y) as (B1 & B2 & B3).
  assert (C : forall e w, int_result (checked e w) = Ok (CInt z) -> in_i32 z).
  { intros e w H. destruct (checked e w) eqn:K; [|discriminate]. cbn in H.
    injection H as <-. eapply checked_in; eassumption. }
  destruct o; cbn [int_op]; try discriminate; try (apply C).
  - unfold checked_div_integer. destruct (y =? 0)%Z; [discriminate|]. apply C.
  - destruct (Z.eq_dec y 0) as [E|E].
    + destruct (mod_char x y X Y) as [M _]. rewrite (M E). discriminate.
    + destruct (mod_char x y X Y) as [_ M]. destruct (M E _ _ (trunc_div x y E)) as [M1 M2].
      destruct (is_i32 (Z.quot x y)) eqn:QQ; [assert (Q : in_i32 (Z.quot x y)) by (apply is_i32_spec; exact QQ)|
        assert (Q : ~ in_i32 (Z.quot x y)) by (rewrite <- is_i32_spec; congruence)].
      * destruct (M1 Q) as [-> R]. intros H. injection H as <-. exact R.
      * rewrite (M2 Q). discriminate.
  - destruct (pow_char x y) as [P1 P2]. destruct (Z.lt_ge_cases y 0) as [L|L].
    + rewrite (P1 L). discriminate.
    + specialize (P2 L). destruct (power_integer x y) eqn:K; [|discriminate]. cbn.
      intros H. injection H as <-. destruct P2 as [P3 P4].
      destruct (is_i32 (x ^ y)) eqn:Q; [apply is_i32_spec in Q; specialize (P3 Q); apply Ok_inj in P3; rewrite P3; exact Q|].
      assert (P5 : ~ in_i32 (x ^ y)) by (rewrite <- is_i32_spec; congruence). specialize (P4 P5). discriminate.
  - intros H. injection H as <-. exact B1.
  - intros H. injection H as <-. exact B2.
  - intros H. injection H as <-. exact B3.
  - destruct (shl_char x y) as [P1 P2]. destruct (Z.lt_ge_cases y 0) as [L|L].
    + rewrite (P1 L). discriminate.
    + destruct (P2 L) as (v & -> & R & _). intros H. injection H as <-. exact R.
  - destruct (shr_char x y X) as [P1 P2]. destruct (Z.lt_ge_cases y 0) as [L|L].
    + rewrite (P1 L). discriminate.
    + destruct (P2 L) as (-> & R). intros H. injection H as <-. exact R.
Qed.

Lemma double_to_integer_range d z : double_to_integer d = Some z -> in_i32 z.
Proof.
  intros H. pose proof (double_to_integer_char d) as C. destruct (double_value d) as [[n m]|]; [|congruence].
  destruct C as (_ & k & _ & _ & C1 & C2). destruct (is_i32 k) eqn:Q.
  - apply is_i32_spec in Q. rewrite (C1 Q) in H. congruence.
  - rewrite C2 in H; [discriminate|]. rewrite <- is_i32_spec. congruence.
Qed.

(** * Registers *)

Lemma wf_id_lt {K V} (m : @idmap K V) ord k v i : wf m ord -> In (k, (v, i)) m -> (i < N.of_nat (id_len m))%N.
Proof.
  intros (W1 & W2 & _) H. apply (in_map (fun e => snd (snd e))) in H. rewrite W2 in H. cbn [snd] in H.
  apply in_map_iff in H as (j & <- & J). apply in_seq in J. rewrite <- W1, map_length in J.
  unfold id_len. lia.
Qed.

Lemma lookup_range ls v r p : ls_wf ls -> get_local_or_global ls v = Ok (r, p) ->
  (r < 64)%N \/ (64 <= r < 64 + N.of_nat (id_len (ls_locals ls)))%N /\ (r < 256)%N.
Proof.
  intros [ord W] H. unfold get_local_or_global, get_global, get_var in H.
  assert (G : match id_get ustr_eqb (gs_vars (ls_global ls)) (symkey (vr_name v)) with
    | Some (p, i) => if accepts v (match p with PArray t _ => t | PScalar t => t end) then
        match register_global i with Some r => Ok (r, p) | None => Err (SeOutOfRegisters ScGlobal) end
        else Err (SeIncompatible v)
    | None => Err (SeUndefined v ScGlobal) end = Ok (r, p) -> (r < 64)%N).
  { intros E. destruct (id_get _ _ _) as [[q i]|] in E; [|discriminate]. destruct (accepts _ _); [|discriminate].
    unfold register_global, max_global in E. destruct (N.ltb_spec i 64); [|discriminate].
    apply Ok_pair in E as [<- _]. assumption. }
  destruct (id_get ustr_eqb (ls_locals ls) (symkey (vr_name v))) as [[q i]|] eqn:E.
  - destruct (accepts _ _); [|discriminate]. unfold register_local, max_global, max_register in H.
    destruct (N.leb_spec (i + 64) 255); [|discriminate]. apply Ok_pair in H as [<- _]. right.
    apply (get_in ustr_eqb ueqb) in E. pose proof (wf_id_lt _ _ _ _ _ W E). lia.
  - left. apply G. exact H.
Qed.

Lemma reg_index_eq c r r' : 64 <= c_fp c -> reg_index c r = reg_index c r' -> r = r'.
Proof.
  unfold reg_index, register_to_parts, max_global. intros F.
  destruct (N.ltb_spec r 64), (N.ltb_spec r' 64); intros E; lia.
Qed.

Lemma decode_load w r i : decode w = Some (ILoadInteger r i) -> (i < 65536)%N.
Proof.
  unfold decode. intros H.
  repeat match type of H with
  | match ?x with _ => _ end = _ => destruct x; try discriminate H
  end.
  injection H as _ <-. rewrite get_field16. apply N.mod_lt. discriminate.
Qed.

(** * Running *)

Lemma binop_eq_add (o : binop) : {o = BAdd} + {o <> BAdd}.
Proof. decide equality. Qed.

Section Run.
Variable powf : N -> N -> N.
Variable img : image.
Notation cs := (i_constants img).

Lemma steps_trans c1 h1 c2 h2 c3 h3 : steps powf img c1 h1 c2 h2 -> steps powf img c2 h2 c3 h3 ->
  steps powf img c1 h1 c3 h3.
Proof. induction 1; [auto|]. intros. econstructor; eauto. Qed.

Lemma steps_one c h c1 h1 : step powf img c h = RNext c1 h1 -> steps powf img c h c1 h1.
Proof. intros. econstructor; [eassumption|constructor]. Qed.

Lemma step_at c h i : c_yield c = false -> fetched img (c_pc c) i ->
  step powf img c h = dispatch powf img c h i.
Proof.
  intros Y (w & E & D). unfold step, fetch_exec. rewrite Y, E, D. reflexivity.
Qed.

Lemma same_control_refl c : same_control c c.
Proof. repeat split. Qed.
Lemma same_control_trans a b c : same_control a b -> same_control b c -> same_control a c.
Proof. unfold same_control. intros. intuition congruence. Qed.
Lemma heap_kept_refl h : heap_ok h -> heap_kept h h.
Proof. split; auto. Qed.
Lemma heap_kept_trans a b c : heap_kept a b -> heap_kept b c -> heap_kept a c.
Proof. intros [A1 A2] [B1 B2]. split; auto. Qed.

Lemma stands_kept h h' t raw d : heap_kept h h' -> stands_for cs h t raw d -> stands_for cs h' t raw d.
Proof.
  intros [_ K]. destruct d; cbn [stands_for]; auto. intros [-> H]. split; [reflexivity|].
  revert H. unfold deref_text. destruct (ptr_from raw) as [[i|i]|]; auto. cbn [resolve_string].
  destruct (heap_get h i) as [x|] eqn:E; [|discriminate]. rewrite (K _ _ E). auto.
Qed.

(** The state [c'] differs from [c] below slot [lim] at most in register [reg]. *)
Definition keeps (lim : nat) (reg : N) (c c' : ctx) : Prop :=
  forall i, i < lim -> i <> reg_index c reg -> slot c' i = slot c i.

Definition reach (lim : nat) (reg : N) (c : ctx) (h : heap) (c' : ctx) (h' : heap) : Prop :=
  steps powf img c h c' h' /\ same_control c c' /\ heap_kept h h' /\ keeps lim reg c c'.

Lemma reg_index_fp c c' r : c_fp c' = c_fp c -> reg_index c' r = reg_index c r.
Proof. unfold reg_index. intros ->. reflexivity. Qed.

Lemma reach_refl lim reg c h : heap_ok h -> reach lim reg c h c h.
Proof.
  intros. split; [constructor|]. split; [apply same_control_refl|]. split; [apply heap_kept_refl; assumption|].
  intros i _ _. reflexivity.
Qed.

Lemma reach_trans lim reg c h c1 h1 c2 h2 : reach lim reg c h c1 h1 -> reach lim reg c1 h1 c2 h2 ->
  reach lim reg c h c2 h2.
Proof.
  intros (A1 & A2 & A3 & A4) (B1 & B2 & B3 & B4). split; [eapply steps_trans; eassumption|].
  split; [eapply same_control_trans; eassumption|]. split; [eapply heap_kept_trans; eassumption|].
  intros i L Q. rewrite B4, A4; auto. rewrite (reg_index_fp c); [assumption|apply A2].
Qed.

(** A run that only writes temporaries above [lim] and its own destination, seen from outside. *)
Lemma reach_temp lim lim' reg rtemp c h c' h' : reach lim' rtemp c h c' h' -> lim <= lim' ->
  lim <= reg_index c rtemp -> reach lim reg c h c' h'.
Proof.
  intros (A1 & A2 & A3 & A4) L R. repeat split; try apply A2; try apply A3; auto.
  intros i Q N. apply A4; lia.
Qed.

(** One instruction that writes one register. *)
Lemma reach_write lim reg r c h i raw h' : c_yield c = false -> fetched img (c_pc c) i ->
  dispatch powf img c h i = RNext (Vm_Model.next_pc (set_reg c r raw)) h' -> heap_kept h h' ->
  (r = reg \/ lim <= reg_index c r) ->
  reach lim reg c h (Vm_Model.next_pc (set_reg c r raw)) h'.
Proof.
  intros Y F D K R. split; [|split; [repeat split|split; [assumption|]]].
  - apply steps_one. rewrite (step_at _ _ _ Y F). exact D.
  - intros j L N. change (slot (Vm_Model.next_pc (set_reg c r raw)) j) with (slot (set_reg c r raw) j).
    rewrite slot_set_reg. destruct (Nat.eqb_spec j (reg_index c r)) as [->|]; [|reflexivity].
    destruct R as [->|R]; [congruence|lia].
Qed.

Lemma get_written c r raw : get_reg (Vm_Model.next_pc (set_reg c r raw)) r = raw.
Proof.
  change (slot (set_reg c r raw) (reg_index c r) = raw). rewrite slot_set_reg, Nat.eqb_refl. reflexivity.
Qed.

Lemma get_other c r raw r' : 64 <= c_fp c -> r <> r' ->
  get_reg (Vm_Model.next_pc (set_reg c r raw)) r' = get_reg c r'.
Proof.
  intros F N. change (slot (set_reg c r raw) (reg_index c r') = slot c (reg_index c r')).
  rewrite slot_set_reg. destruct (Nat.eqb_spec (reg_index c r') (reg_index c r)) as [E|]; [|reflexivity].
  exfalso. apply N. symmetry. eapply reg_index_eq; eassumption.
Qed.

(** What the code from [c] on does: stops at [pc'] with a value, or fails. *)
Definition failing lim reg c h e := exists c' h', reach lim reg c h c' h' /\ fails powf img c' h' e.
Definition settles (pc' lim : nat) (reg : N) (t : etype) (c : ctx) (h : heap) (r : res vm_error cdatum) : Prop :=
  match r with
  | Ok d => (exists c' h', reach lim reg c h c' h' /\ c_pc c' = pc' /\
               stands_for cs h' t (get_reg c' reg) d) \/ failing lim reg c h XHeap
  | Err e => failing lim reg c h e \/ failing lim reg c h XHeap
  end.

Lemma outcome_after pc' lim reg t c h c1 h1 r : reach lim reg c h c1 h1 ->
  settles pc' lim reg t c1 h1 r -> settles pc' lim reg t c h r.
Proof.
  intros R. assert (F : forall e, failing lim reg c1 h1 e -> failing lim reg c h e).
  { intros e (c' & h' & A & B). exists c', h'. split; [eapply reach_trans; eassumption|assumption]. }
  destruct r; cbn [settles]; intros [H|H]; auto.
  destruct H as (c' & h' & A & B & C). left. exists c', h'. split; [eapply reach_trans; eassumption|auto].
Qed.

(** Doing nothing or failing at once. *)
Lemma outcome_fail pc' lim reg t c h i e : c_yield c = false -> fetched img (c_pc c) i -> heap_ok h ->
  dispatch powf img c h i = set_exception c h e -> settles pc' lim reg t c h (Err e).
Proof.
  intros Y F O D. left. exists c, h. split; [apply reach_refl; assumption|].
  exists (c_pc c). rewrite (step_at _ _ _ Y F). exact D.
Qed.

Lemma outcome_write pc' lim reg t c h i raw h' d : c_yield c = false -> fetched img (c_pc c) i ->
  dispatch powf img c h i = RNext (Vm_Model.next_pc (set_reg c reg raw)) h' -> heap_kept h h' ->
  pc' = S (c_pc c) -> stands_for cs h' t raw d -> settles pc' lim reg t c h (Ok d).
Proof.
  intros Y F D K -> T. left. exists (Vm_Model.next_pc (set_reg c reg raw)), h'.
  split; [eapply reach_write; eauto|]. split; [reflexivity|]. rewrite get_written. exact T.
Qed.

(** ** Single operators *)

Definition raw_of (d : cdatum) : N :=
  match d with CBool b => b2n b | CDouble x => x | CInt z => i32_as_u64 z | CText _ => 0%N end.

Lemma raw_stands h d : (forall z, d = CInt z -> in_i32 z) -> (forall s, d <> CText s) ->
  stands_for cs h (cdatum_etype d) (raw_of d) d.
Proof.
  destruct d; intros I T; cbn [stands_for cdatum_etype raw_of].
  - split; [reflexivity|]. destruct b; reflexivity.
  - auto.
  - split; [reflexivity|]. split; [auto|]. apply as_i32_as_u64. auto.
  - exfalso. apply (T s). reflexivity.
Qed.

Lemma int_dispatch o c h reg rtemp x y : as_i32 (get_reg c reg) = x -> as_i32 (get_reg c rtemp) = y ->
  dispatch powf img c h (I3 (make_integer o) reg reg rtemp) =
  match int_op o x y with
  | Ok d => RNext (Vm_Model.next_pc (set_reg c reg (raw_of d))) h
  | Err e => set_exception c h e
  end.
Proof.
  intros X Y. cbn [dispatch]. destruct o; cbn [make_integer do_op3 int_op];
    unfold do_binary_integer_op, do_binary_integer_predicate_op; rewrite X, Y; try reflexivity.
  - destruct (checked_add_integer x y); reflexivity.
  - destruct (checked_sub_integer x y); reflexivity.
  - destruct (checked_mul_integer x y); reflexivity.
  - destruct (checked_div_integer x y); reflexivity.
  - destruct (checked_mod_integer x y); reflexivity.
  - destruct (power_integer x y); reflexivity.
  - cbn [raw_of]. rewrite Z.gtb_ltb. reflexivity.
  - cbn [raw_of]. rewrite Z.geb_leb. reflexivity.
  - destruct (checked_shl_integer x y); reflexivity.
  - destruct (checked_shr_integer x y); reflexivity.
Qed.

Lemma double_dispatch o op c h reg rtemp : make_double o = Some op ->
  exists d, double_op powf o (get_reg c reg) (get_reg c rtemp) = Some d /\
  dispatch powf img c h (I3 op reg reg rtemp) = RNext (Vm_Model.next_pc (set_reg c reg (raw_of d))) h /\
  (forall z, d <> CInt z) /\ (forall s, d <> CText s) /\
  cdatum_etype d = if is_relational o then TBoolean else TDouble.
Proof.
  intros H. destruct o; try discriminate H; injection H as <-; eexists;
    (split; [exact eq_refl|]; split; [exact eq_refl|]; repeat split; congruence).
Qed.

Lemma bool_dispatch o op c h reg rtemp (x y : bool) : make_boolean o = Some op ->
  get_reg c reg = b2n x -> get_reg c rtemp = b2n y ->
  exists b, bool_op o x y = Some (CBool b) /\
  dispatch powf img c h (I3 op reg reg rtemp) = RNext (Vm_Model.next_pc (set_reg c reg (b2n b))) h.
Proof.
  intros H X Y. destruct o; try discriminate H; injection H as <-; eexists;
    (split; [exact eq_refl|]); cbn [dispatch do_op3];
    unfold do_binary_integer_op, do_binary_boolean_op; rewrite X, Y; destruct x, y; exact eq_refl.
Qed.

Lemma text_dispatch o op c h reg rtemp x y : make_text o = Some op -> o <> BAdd ->
  deref_text (get_reg c reg) cs h = Some x -> deref_text (get_reg c rtemp) cs h = Some y ->
  exists b, text_op o x y = Some (CBool b) /\
  dispatch powf img c h (I3 op reg reg rtemp) = RNext (Vm_Model.next_pc (set_reg c reg (b2n b))) h.
Proof.
  intros H NA X Y. destruct o; try discriminate H; try congruence; injection H as <-; eexists;
    (split; [exact eq_refl|]); cbn [dispatch do_op3]; unfold do_binary_text_op; rewrite X, Y; exact eq_refl.
Qed.

Lemma code_emit1 i p g b : code_in img (emit i p g) b (next_pc (emit i p g)) -> b <= next_pc g ->
  i <> INop -> fetched img (next_pc g) i.
Proof. intros H L N. apply H; [rewrite emit_pc; lia| |exact N]. apply emit_at. Qed.

Lemma code_emit2 i p j q g b : code_in img (emit j q (emit i p g)) b (next_pc (emit j q (emit i p g))) ->
  b <= next_pc g -> i <> INop -> j <> INop -> fetched img (next_pc g) i /\ fetched img (S (next_pc g)) j.
Proof.
  intros H L N M. split.
  - apply H; [rewrite !emit_pc; lia| |exact N]. unfold emit, with_code, next_pc. cbn [g_code].
    rewrite nth_error_app1, nth_error_app2; [rewrite Nat.sub_diag; reflexivity|lia|]. rewrite app_length. cbn. lia.
  - rewrite <- (emit_pc i p g). eapply code_emit1; [exact H| |exact M]. rewrite emit_pc. lia.
Qed.

Definition result_type (o : binop) (t : etype) : etype := if is_relational o then TBoolean else t.

Lemma int_outcome o lim reg rtemp c h x y : c_yield c = false ->
  fetched img (c_pc c) (I3 (make_integer o) reg reg rtemp) -> heap_ok h -> in_i32 x -> in_i32 y ->
  as_i32 (get_reg c reg) = x -> as_i32 (get_reg c rtemp) = y ->
  settles (S (c_pc c)) lim reg (result_type o TInteger) c h (int_op o x y).
Proof.
  intros Y F O Ix Iy X Z. pose proof (int_dispatch o c h reg rtemp x y X Z) as D.
  destruct (int_op o x y) as [d|e] eqn:E.
  - eapply outcome_write; [exact Y|exact F|exact D|apply heap_kept_refl; exact O|reflexivity|].
    assert (T : result_type o TInteger = cdatum_etype d).
    { clear D F. unfold result_type.
      assert (K : forall r, int_result r = Ok d -> TInteger = cdatum_etype d).
      { intros r K. destruct r; [|discriminate]. cbn in K. apply Ok_inj in K. subst d. reflexivity. }
      destruct o; cbn [is_relational int_op] in *; try (apply (K _ E)); apply Ok_inj in E; subst d; reflexivity. }
    rewrite T. apply raw_stands.
    + intros z ->. eapply int_op_range; [exact Ix|exact Iy|exact E].
    + intros s ->. destruct o; cbn [int_op] in E; try discriminate;
        match type of E with int_result ?r = _ => destruct r; discriminate end.
  - eapply outcome_fail; eassumption.
Qed.

Lemma double_outcome o op lim reg rtemp c h : make_double o = Some op -> c_yield c = false ->
  fetched img (c_pc c) (I3 op reg reg rtemp) -> heap_ok h ->
  exists d, double_op powf o (get_reg c reg) (get_reg c rtemp) = Some d /\
  settles (S (c_pc c)) lim reg (result_type o TDouble) c h (Ok d).
Proof.
  intros M Y F O. destruct (double_dispatch o op c h reg rtemp M) as (d & E & D & I & T & Q).
  exists d. split; [exact E|]. eapply outcome_write; [exact Y|exact F|exact D|apply heap_kept_refl; exact O|reflexivity|].
  unfold result_type. rewrite <- Q. apply raw_stands; [|exact T]. intros z ->. exfalso. apply (I z). reflexivity.
Qed.

Lemma double_kind o op : make_double o = Some op -> forall x y, double_op powf o x y <> None.
Proof. intros H x y. destruct o; cbn [double_op]; discriminate. Qed.

Lemma promote_step lim reg r c h z : c_yield c = false -> fetched img (c_pc c) (I1 IntegerToDouble r) ->
  heap_ok h -> as_i32 (get_reg c r) = z -> (r = reg \/ lim <= reg_index c r) ->
  exists c1, reach lim reg c h c1 h /\ c_pc c1 = S (c_pc c) /\ get_reg c1 r = f64_of_i32 z /\
    (64 <= c_fp c -> forall r', r' <> r -> get_reg c1 r' = get_reg c r').
Proof.
  intros Y F O X R. exists (Vm_Model.next_pc (set_reg c r (f64_of_i32 z))). split; [|split; [|split]].
  - eapply reach_write; [exact Y|exact F| |apply heap_kept_refl; exact O|exact R].
    cbn [dispatch do_op1]. rewrite X. exact eq_refl.
  - reflexivity.
  - apply get_written.
  - intros L r' N. apply get_other; [exact L|]. congruence.
Qed.

Ltac stands :=
  repeat match goal with
  | H : stands_for _ _ _ _ (_ _) |- _ => cbn [stands_for] in H
  | H : _ /\ _ |- _ => destruct H
  end.

Lemma binop_runs lim o pos reg t rtemp rt rpos g g' t' c h a b :
  (if is_relational o then relational_op else binary_op) o pos reg t rtemp rt rpos g = COk (g', t') ->
  code_in img g' (next_pc g) (next_pc g') -> c_pc c = next_pc g -> c_yield c = false ->
  64 <= c_fp c -> heap_ok h -> reg <> rtemp -> lim <= reg_index c rtemp ->
  stands_for cs h t (get_reg c reg) a -> stands_for cs h rt (get_reg c rtemp) b ->
  exists r, apply2 powf o a b = Some r /\ settles (next_pc g') lim reg t' c h r.
Proof.
  intros H CI PC Y FP O NE LIM A B.
  assert (OP : (match t, rt with
    | TBoolean, TBoolean => exists op, make_boolean o = Some op /\ g' = emit (I3 op reg reg rtemp) pos g /\ t' = TBoolean
    | TText, TText => exists op, make_text o = Some op /\ g' = emit (I3 op reg reg rtemp) pos g /\
        t' = result_type o TText
    | TInteger, TInteger => g' = emit (I3 (make_integer o) reg reg rtemp) pos g /\ t' = result_type o TInteger
    | TDouble, TDouble => exists op, make_double o = Some op /\ g' = emit (I3 op reg reg rtemp) pos g /\ t' = result_type o TDouble
    | TInteger, TDouble => exists op, make_double o = Some op /\
        g' = emit (I3 op reg reg rtemp) pos (emit (I1 IntegerToDouble reg) pos g) /\ t' = result_type o TDouble
    | TDouble, TInteger => exists op, make_double o = Some op /\
        g' = emit (I3 op reg reg rtemp) pos (emit (I1 IntegerToDouble rtemp) rpos g) /\ t' = result_type o TDouble
    | _, _ => False end)).
  { clear -H. destruct o, t, rt; cbn [is_relational relational_op binary_op make_boolean make_double make_text resolve_numeric] in H;
      try discriminate H; apply COk_inj, pair_inj in H as [<- <-];
      try (split; reflexivity); eexists; (split; [reflexivity|]; split; reflexivity). }
  clear H.
  destruct a as [x|x|x|x], b as [y|y|y|y]; stands; subst; cbn [apply2]; try contradiction.
  - destruct OP as (op & M & -> & ->).
    destruct (bool_dispatch o op c h reg rtemp x y M) as (b & E & D); try assumption.
    rewrite E. eexists. split; [reflexivity|]. rewrite emit_pc, <- PC.
    eapply outcome_write; [exact Y| |exact D|apply heap_kept_refl; exact O|reflexivity|].
    + rewrite PC. eapply code_emit1; [exact CI|lia|discriminate].
    + cbn [stands_for]. split; [reflexivity|]. destruct b; reflexivity.
  - destruct OP as (op & M & -> & ->).
    destruct (double_outcome o op lim reg rtemp c h M Y) as (d & E & D).
    { rewrite PC. eapply code_emit1; [exact CI|lia|discriminate]. }
    { exact O. }
    rewrite E. eexists. split; [reflexivity|]. rewrite emit_pc, <- PC. exact D.
  - destruct OP as (op & M & -> & ->). destruct (code_emit2 _ _ _ _ _ _ CI (le_n _) ltac:(discriminate) ltac:(discriminate)) as [F1 F2].
    destruct (promote_step lim reg rtemp c h (as_i32 (get_reg c rtemp)) Y) as (c1 & R & P1 & G & K); [rewrite PC; exact F1|exact O|reflexivity|right; exact LIM|].
    destruct (double_outcome o op lim reg rtemp c1 h M) as (d & E & D).
    { destruct R as (_ & (_ & _ & _ & _ & ->) & _). exact Y. }
    { rewrite P1, PC. exact F2. }
    { exact O. }
    rewrite G, (K FP) in E by exact NE. rewrite E. eexists. split; [reflexivity|].
    eapply outcome_after; [exact R|]. rewrite !emit_pc, <- PC, <- P1. exact D.
  - destruct OP as (op & M & -> & ->). destruct (code_emit2 _ _ _ _ _ _ CI (le_n _) ltac:(discriminate) ltac:(discriminate)) as [F1 F2].
    destruct (promote_step lim reg reg c h (as_i32 (get_reg c reg)) Y) as (c1 & R & P1 & G & K); [rewrite PC; exact F1|exact O|reflexivity|left; reflexivity|].
    destruct (double_outcome o op lim reg rtemp c1 h M) as (d & E & D).
    { destruct R as (_ & (_ & _ & _ & _ & ->) & _). exact Y. }
    { rewrite P1, PC. exact F2. }
    { exact O. }
    rewrite G, (K FP) in E by congruence. rewrite E. eexists. split; [reflexivity|].
    eapply outcome_after; [exact R|]. rewrite !emit_pc, <- PC, <- P1. exact D.
  - destruct OP as (-> & ->). eexists. split; [reflexivity|]. rewrite emit_pc, <- PC.
    apply int_outcome with (rtemp := rtemp); auto. rewrite PC. eapply code_emit1; [exact CI|lia|discriminate].
  - destruct OP as (op & M & -> & ->). assert (F : fetched img (c_pc c) (I3 op reg reg rtemp)).
    { rewrite PC. eapply code_emit1; [exact CI|lia|discriminate]. }
    destruct (binop_eq_add o) as [->|NA].
    + cbn [make_text] in M. injection M as <-. cbn [text_op option_map]. eexists. split; [reflexivity|].
      assert (D : dispatch powf img c h (I3 Concat reg reg rtemp) = do_concat c h cs reg reg rtemp) by reflexivity.
      unfold do_concat in D.
      match goal with A : deref_text (get_reg c reg) _ _ = _, B : deref_text (get_reg c rtemp) _ _ = _ |- _ => rewrite A, B in D end.
      pose proof (heap_push_char h (HText (x ++ y)) O) as HC.
      destruct (heap_push h (HText (x ++ y))) as [[h' p]|] eqn:HP.
      * destruct HC as (_ & HC & _). rewrite emit_pc, <- PC.
        eapply outcome_write; [exact Y|exact F|exact D| |reflexivity|].
        -- split; [eapply heap_push_ok; eassumption|exact HC].
        -- cbn [stands_for]. split; [reflexivity|]. eapply heap_push_text_deref; eassumption.
      * right. exists c, h. split; [apply reach_refl; exact O|]. exists (c_pc c).
        rewrite (step_at _ _ _ Y F), D. reflexivity.
    + match goal with A : deref_text (get_reg c reg) _ _ = _, B : deref_text (get_reg c rtemp) _ _ = _ |- _ =>
        destruct (text_dispatch o op c h reg rtemp x y M NA A B) as (b & E & D) end.
      rewrite E. eexists. split; [reflexivity|]. rewrite emit_pc, <- PC.
      eapply outcome_write; [exact Y|exact F|exact D|apply heap_kept_refl; exact O|reflexivity|].
      cbn [stands_for]. split; [|destruct b; reflexivity].
      unfold result_type. destruct o; try discriminate M; try congruence; reflexivity.
Qed.

(** ** Loading values *)

Lemma consts_before b g g' : grows b g g' -> consts_in img g' -> consts_in img g.
Proof.
  intros G C ord W. destruct (gr_const _ _ _ G ord W) as [new W']. destruct (C _ W') as [rest E].
  exists (new ++ rest). rewrite E, app_assoc. reflexivity.
Qed.

Lemma code_before a b g g' : grows b g g' -> a <= next_pc g' -> code_in img g' a (next_pc g') -> b = next_pc g ->
  code_in img g a (next_pc g).
Proof.
  intros G L C -> p i R E N. apply C; [pose proof (gr_len _ _ _ G); lia| |exact N].
  rewrite (gr_code _ _ _ G); [exact E|lia].
Qed.

Lemma code_after a b g : forall g', code_in img g' a (next_pc g') -> a <= next_pc g -> b = next_pc g ->
  code_in img g' b (next_pc g').
Proof. intros g' C L -> p i R. apply C. lia. Qed.

Lemma constant_there c pos g g' i : get_constant c pos g = COk (g', i) -> gwf g -> consts_in img g' ->
  nth_error cs (N.to_nat i) = Some c.
Proof.
  intros H W C. destruct (grows_constant 0 _ _ _ _ _ H W) as (G & _ & _ & _ & _ & K).
  pose proof (grows_gwf _ _ _ G W) as (_ & (ord & W') & _). destruct (C _ W') as [rest E]. rewrite E.
  apply nth_error_app_some. apply K. exact W'.
Qed.

Lemma consts_emit i p g : consts_in img (emit i p g) -> consts_in img g.
Proof. intros H ord W. apply H. exact W. Qed.

Lemma value_runs r d pos g g' : emit_value r d pos g = COk g' -> gwf g ->
  code_in img g' (next_pc g) (next_pc g') -> consts_in img g' -> (forall z, d = CInt z -> in_i32 z) ->
  exists i raw, fetched img (next_pc g) i /\ next_pc g' = S (next_pc g) /\
    (forall c h, dispatch powf img c h i = RNext (Vm_Model.next_pc (set_reg c r raw)) h) /\
    forall h, stands_for cs h (cdatum_etype d) raw d.
Proof.
  intros H W CI K I. destruct d as [b|x|z|x]; cbn [emit_value] in H; cbn [cdatum_etype stands_for].
  - apply COk_inj in H as <-. eexists _, _. split; [eapply code_emit1; [exact CI|lia|discriminate]|].
    split; [apply emit_pc|]. split; [reflexivity|]. intros h. split; [reflexivity|]. destruct b; reflexivity.
  - destruct (get_constant (CDouble x) pos g) as [[g1 i]| |] eqn:E; try discriminate H. cbn [bind] in H.
    apply COk_inj in H as <-. apply consts_emit in K. pose proof (constant_there _ _ _ _ _ E W K) as T.
    destruct (grows_constant 0 _ _ _ _ _ E W) as (_ & C & _). apply next_pc_eq in C.
    exists (ILoadConstant r i), x. split; [rewrite <- C; eapply code_emit1; [exact CI|rewrite C; lia|discriminate]|].
    split; [rewrite emit_pc, C; reflexivity|]. split; [intros; cbn [dispatch]; rewrite T; reflexivity|]. auto.
  - specialize (I z eq_refl). destruct ((0 <=? z) && (z <=? 65535))%Z eqn:R.
    + apply andb_prop in R as [R1 R2]. apply Z.leb_le in R1, R2.
      apply COk_inj in H as <-. eexists _, _. split; [eapply code_emit1; [exact CI|lia|discriminate]|].
      split; [apply emit_pc|]. split; [reflexivity|]. intros h. split; [reflexivity|]. split; [exact I|].
      rewrite as_i32_small; [lia|]. change (2^31)%N with 2147483648%N. lia.
    + destruct (get_constant (CInt z) pos g) as [[g1 i]| |] eqn:E; try discriminate H. cbn [bind] in H.
      apply COk_inj in H as <-. apply consts_emit in K. pose proof (constant_there _ _ _ _ _ E W K) as T.
      destruct (grows_constant 0 _ _ _ _ _ E W) as (_ & C & _). apply next_pc_eq in C.
      exists (ILoadConstant r i), (i32_as_u64 z).
      split; [rewrite <- C; eapply code_emit1; [exact CI|rewrite C; lia|discriminate]|].
      split; [rewrite emit_pc, C; reflexivity|]. split; [intros; cbn [dispatch]; rewrite T; reflexivity|].
      intros h. split; [reflexivity|]. split; [exact I|]. apply as_i32_as_u64. exact I.
  - destruct (get_constant (CText x) pos g) as [[g1 i]| |] eqn:E; try discriminate H. cbn [bind] in H.
    apply COk_inj in H as <-. apply consts_emit in K. pose proof (constant_there _ _ _ _ _ E W K) as T.
    destruct (grows_constant 0 _ _ _ _ _ E W) as (_ & C & _). apply next_pc_eq in C.
    assert (F : fetched img (next_pc g) (ILoadInteger r i)).
    { rewrite <- C. eapply code_emit1; [exact CI|rewrite C; lia|discriminate]. }
    exists (ILoadInteger r i), i. split; [exact F|]. split; [rewrite emit_pc, C; reflexivity|].
    split; [reflexivity|]. intros h. split; [reflexivity|]. destruct F as (w & _ & D). apply decode_load in D.
    unfold deref_text. rewrite ptr_from_constant; [cbn [resolve_string]; rewrite T; reflexivity|].
    change (2^24)%N with 16777216%N. lia.
Qed.

Lemma literal_runs d lim pos reg st st' t c h : compile_literal d (cdatum_etype d) pos reg st = COk (st', t) ->
  gwf (fst st) -> code_in img (fst st') (next_pc (fst st)) (next_pc (fst st')) -> consts_in img (fst st') ->
  c_pc c = next_pc (fst st) -> c_yield c = false -> heap_ok h -> (forall z, d = CInt z -> in_i32 z) ->
  settles (next_pc (fst st')) lim reg t c h (Ok d).
Proof.
  intros H W CI K PC Y O I. unfold compile_literal in H.
  destruct (emit_value reg d pos (fst st)) as [g'| |] eqn:E; try discriminate H. cbn [bind] in H.
  apply COk_inj, pair_inj in H as [<- <-]. cbn [fst] in *.
  destruct (value_runs _ _ _ _ _ E W CI K I) as (i & raw & F & P & D & T).
  eapply outcome_write; [exact Y|rewrite PC; exact F|apply D|apply heap_kept_refl; exact O|congruence|apply T].
Qed.

(** ** One operand *)

Lemma unop_runs ls o pos reg t st st' t' c h lim a :
  apply_unary ls o pos reg t st = COk (st', t') -> gwf (fst st) ->
  code_in img (fst st') (next_pc (fst st)) (next_pc (fst st')) -> consts_in img (fst st') ->
  c_pc c = next_pc (fst st) -> c_yield c = false -> 64 <= c_fp c -> heap_ok h ->
  lim = c_fp c + N.to_nat (N.of_nat (id_len (ls_locals ls)) + ts_next (snd st)) ->
  reg_index c reg < lim -> stands_for cs h t (get_reg c reg) a ->
  exists r, apply1 o a = Some r /\ settles (next_pc (fst st')) lim reg t' c h r.
Proof.
  intros H W CI K PC Y FP O L RL A. unfold apply_unary in H.
  destruct a as [b|x|z|x]; stands; subst t; destruct o; cbn [unary_boolean unary_double unary_integer] in H;
    try discriminate H; cbn [apply1].
  - destruct (open_scope ls st) as [sc| |] eqn:E1; try discriminate H. cbn [bind] in H.
    destruct (alloc sc pos st) as [[[temp sc2] st2]| |] eqn:E2; try discriminate H. cbn [bind] in H.
    destruct (emit_value temp (CInt 1) pos (fst st2)) as [g2| |] eqn:E3; try discriminate H. cbn [bind] in H.
    apply COk_inj, pair_inj in H as [<- <-]. cbn [close fst] in *.
    apply open_ok in E1 as (_ & B & NL). apply alloc_ok in E2 as (A1 & _ & _ & _ & _ & A2 & A3).
    rewrite A1 in E3.
    destruct (grows_value (next_pc (fst st)) _ _ _ _ _ E3 W (le_n _)) as [G3 P3].
    assert (X : reg_index c temp = lim).
    { unfold reg_index, register_to_parts, max_global. subst lim.
      destruct (N.ltb_spec temp 64); [lia|]. cbn [fst snd]. lia. }
    assert (W2 : gwf g2) by (eapply grows_gwf; eassumption).
    destruct (value_runs _ _ _ _ _ E3 W) as (i & raw & F & P & D & T).
    { eapply code_before; [apply grows_emit; [exact W2|apply le_n]| | |reflexivity].
      - rewrite emit_pc. lia.
      - exact CI. }
    { apply consts_emit in K. exact K. }
    { intros q Q. injection Q as <-. split; vm_compute; congruence. }
    assert (R : reach lim reg c h (Vm_Model.next_pc (set_reg c temp raw)) h).
    { eapply reach_write; [exact Y|rewrite PC; exact F|apply D|apply heap_kept_refl; exact O|]. right. lia. }
    eexists. split; [reflexivity|]. eapply outcome_after; [exact R|].
    assert (NE : temp <> reg) by (intros ->; lia).
    eapply outcome_write with (raw := b2n (negb b)) (h' := h) (i := I3 BitwiseXor reg reg temp).
    + exact Y.
    + change (c_pc (Vm_Model.next_pc (set_reg c temp raw))) with (S (c_pc c)). rewrite PC, <- P3.
      eapply code_emit1; [exact CI|lia|discriminate].
    + cbn [dispatch do_op3]. unfold do_binary_integer_op. rewrite get_written, get_other by auto.
      destruct (T h) as (_ & _ & ->). match goal with Q : get_reg c reg = _ |- _ => rewrite Q end.
      destruct b; exact eq_refl.
    + apply heap_kept_refl. exact O.
    + change (c_pc (Vm_Model.next_pc (set_reg c temp raw))) with (S (c_pc c)). rewrite emit_pc. lia.
    + cbn [stands_for]. split; [reflexivity|]. destruct b; reflexivity.
  - apply COk_inj, pair_inj in H as [<- <-]. cbn [e_emit fst] in *. eexists. split; [reflexivity|].
    eapply outcome_write with (i := I1 NegateDouble reg); [exact Y|rewrite PC; eapply code_emit1; [exact CI|lia|discriminate]
      |cbn [dispatch do_op1]; exact eq_refl|apply heap_kept_refl; exact O|rewrite emit_pc; lia|].
    cbn [stands_for]. split; congruence.
  - apply COk_inj, pair_inj in H as [<- <-]. cbn [e_emit fst] in *. eexists. split; [reflexivity|].
    assert (F : fetched img (c_pc c) (I1 NegateInteger reg)) by (rewrite PC; eapply code_emit1; [exact CI|lia|discriminate]).
    assert (D : dispatch powf img c h (I1 NegateInteger reg) = do_op1 c h NegateInteger reg) by reflexivity.
    cbn [do_op1] in D. match goal with Q : as_i32 _ = _ |- _ => rewrite Q in D end.
    destruct (checked_neg_integer z) as [y|e] eqn:E; cbn [int_result].
    + assert (in_i32 y) by (eapply checked_in; exact E).
      eapply outcome_write; [exact Y|exact F|exact D|apply heap_kept_refl; exact O|rewrite emit_pc; lia|].
      cbn [stands_for]. split; [reflexivity|]. split; [assumption|]. apply as_i32_as_u64. assumption.
    + eapply outcome_fail; eassumption.
  - apply COk_inj, pair_inj in H as [<- <-]. cbn [e_emit fst] in *. eexists. split; [reflexivity|].
    assert (F : fetched img (c_pc c) (I1 BitwiseNot reg)) by (rewrite PC; eapply code_emit1; [exact CI|lia|discriminate]).
    assert (D : dispatch powf img c h (I1 BitwiseNot reg) = do_op1 c h BitwiseNot reg) by reflexivity.
    cbn [do_op1] in D. match goal with Q : as_i32 _ = _, I : in_i32 z |- _ => rewrite Q in D; destruct (not_char z I) as [N1 N2] end.
    eapply outcome_write; [exact Y|exact F|exact D|apply heap_kept_refl; exact O|rewrite emit_pc; lia|].
    cbn [stands_for]. split; [reflexivity|].
    assert (NN : not_integer z = Z.lnot z) by (rewrite N2; unfold Z.lnot; lia). rewrite <- NN.
    split; [assumption|]. apply as_i32_as_u64. assumption.
Qed.

(** ** Expressions *)

Definition stored (ls : lsyms) (vs : list varref) (c : ctx) (h : heap) (s : env) : Prop :=
  forall v d, In v vs -> s (ascii_upper (vr_name v)) = Some d ->
    match get_local_or_global ls v with
    | Ok (r, PScalar t) => stands_for cs h t (get_reg c r) d
    | Ok (_, PArray _ _) => False
    | Err (SeUndefined _ _) => False
    | Err _ => True
    end.
Definition untouched (ls : lsyms) (vs : list varref) (s : env) (reg : N) : Prop :=
  forall v d r p, In v vs -> s (ascii_upper (vr_name v)) = Some d -> get_local_or_global ls v = Ok (r, p) -> r <> reg.
Definition top_slot (ls : lsyms) (c : ctx) (t : tstate) : nat :=
  c_fp c + N.to_nat (N.of_nat (id_len (ls_locals ls)) + ts_next t).

Lemma var_slot ls v r p c t : ls_wf ls -> get_local_or_global ls v = Ok (r, p) -> 64 <= c_fp c ->
  reg_index c r < top_slot ls c t.
Proof.
  intros W H F. pose proof (lookup_range _ _ _ _ W H) as R. unfold top_slot, reg_index, register_to_parts, max_global.
  destruct (N.ltb_spec r 64); cbn [fst snd]; lia.
Qed.

Lemma stored_kept ls vs c h s reg c' h' lim t : ls_wf ls -> stored ls vs c h s -> untouched ls vs s reg ->
  reach lim reg c h c' h' -> 64 <= c_fp c -> top_slot ls c t <= lim -> stored ls vs c' h' s.
Proof.
  intros W SO U (_ & SC & HK & KP) FP L v d Iv E. specialize (SO v d Iv E). specialize (U v d).
  destruct (get_local_or_global ls v) as [[r [t0 n0|t0]]|[x|x|x|x w]] eqn:G; auto.
  assert (Q : get_reg c' r = get_reg c r).
  { unfold get_reg. rewrite (reg_index_fp c c' r) by apply SC. apply KP.
    - pose proof (var_slot _ _ _ _ _ t W G FP). lia.
    - intros X. apply reg_index_eq in X; [|exact FP]. apply (U _ _ Iv E eq_refl X). }
  rewrite Q. eapply stands_kept; eassumption.
Qed.

Lemma stored_sub ls vs vs' c h s : (forall v, In v vs' -> In v vs) -> stored ls vs c h s -> stored ls vs' c h s.
Proof. intros I H v d Iv. apply H. auto. Qed.
Lemma untouched_sub ls vs vs' s reg : (forall v, In v vs' -> In v vs) -> untouched ls vs s reg -> untouched ls vs' s reg.
Proof. intros I H v d r p Iv. apply H. auto. Qed.

Lemma expr_runs ls s e : ls_wf ls -> forall reg st st' t c h r,
  compile_expr ls e reg st = COk (st', t) -> gwf (fst st) ->
  code_in img (fst st') (next_pc (fst st)) (next_pc (fst st')) -> consts_in img (fst st') ->
  c_pc c = next_pc (fst st) -> c_yield c = false -> 64 <= c_fp c -> heap_ok h -> literals_ok e ->
  reg_index c reg < top_slot ls c (snd st) ->
  stored ls (vars e) c h s -> untouched ls (vars e) s reg -> eval powf s e = Some r ->
  settles (next_pc (fst st')) (top_slot ls c (snd st)) reg t c h r.
Proof.
  intros LW. induction e as [b p|b p|z p|x p|v p|o l rr p IHl IHr|o e p IHe|v p args IH] using expr_rect';
    intros reg st st' t c h r H W CI K PC Y FP O LO RL SO UN EV; cbn [compile_expr eval literals_ok vars] in *.
  - injection EV as <-. eapply (literal_runs (CBool b)); eauto. discriminate.
  - injection EV as <-. eapply (literal_runs (CDouble b)); eauto. discriminate.
  - injection EV as <-. eapply (literal_runs (CInt z)); eauto. intros q Q. injection Q as <-. exact LO.
  - injection EV as <-. eapply (literal_runs (CText x)); eauto. discriminate.
  - destruct (s (ascii_upper (vr_name v))) as [d|] eqn:E; [|discriminate EV]. cbn [option_map] in EV. injection EV as <-.
    specialize (SO v d (or_introl eq_refl) E). unfold compile_symbol in H.
    destruct (get_local_or_global ls v) as [[q [t0 n0|t0]]|[y|y|y|y w]] eqn:G; try contradiction; try discriminate H.
    apply COk_inj, pair_inj in H as [<- <-]. cbn [e_emit fst] in *.
    eapply outcome_write with (i := IMove reg q); [exact Y|rewrite PC; eapply code_emit1; [exact CI|lia|discriminate]
      |reflexivity|apply heap_kept_refl; exact O|rewrite emit_pc; lia|exact SO].
  - destruct (compile_expr ls l reg st) as [[st1 tl]| |] eqn:E1; try discriminate H. cbn [bind] in H.
    destruct (compile_expr_frame ls l _ _ _ _ E1 W) as [[G1 N1] L1].
    assert (W1 : gwf (fst st1)) by (eapply grows_gwf; eassumption).
    unfold apply_binary in H.
    destruct (open_scope ls st1) as [sc| |] eqn:E2; try discriminate H. cbn [bind] in H.
    destruct (alloc sc (start_pos rr) st1) as [[[rtemp sc2] st2]| |] eqn:E3; try discriminate H. cbn [bind] in H.
    destruct (compile_expr ls rr rtemp st2) as [[st3 tr]| |] eqn:E4; try discriminate H. cbn [bind] in H.
    match type of H with bind ?q _ = _ => destruct q as [[g4 t4]| |] eqn:E5; try discriminate H end. cbn [bind] in H.
    apply COk_inj, pair_inj in H as [<- <-]. cbn [close fst] in *.
    apply open_ok in E2 as (_ & _ & NL). apply alloc_ok in E3 as (A1 & _ & _ & _ & A2 & A3 & A4).
    assert (W2 : gwf (fst st2)) by (rewrite A1; exact W1).
    destruct (compile_expr_frame ls rr _ _ _ _ E4 W2) as [[G2 N2] L2].
    assert (W3 : gwf (fst st3)) by (eapply grows_gwf; eassumption).
    destruct (binary_op_frame (next_pc (fst st3)) _ _ _ _ _ _ _ _ _ _ E5 W3 (le_n _)) as [G3 L3].
    rewrite A1 in G2, L2.
    assert (C3 : code_in img (fst st3) (next_pc (fst st)) (next_pc (fst st3))).
    { eapply code_before; [exact G3| |exact CI|reflexivity]. lia. }
    assert (C1 : code_in img (fst st1) (next_pc (fst st)) (next_pc (fst st1))).
    { eapply code_before; [exact G2| |exact C3|reflexivity]. lia. }
    assert (K3 : consts_in img (fst st3)) by (eapply consts_before; eassumption).
    assert (K1 : consts_in img (fst st1)) by (eapply consts_before; eassumption).
    destruct LO as [LO1 LO2].
    assert (SU1 : forall v, In v (vars l) -> In v (vars l ++ vars rr)) by (intros; apply in_or_app; auto).
    assert (SU2 : forall v, In v (vars rr) -> In v (vars l ++ vars rr)) by (intros; apply in_or_app; auto).
    destruct (eval powf s l) as [[a|ea]|] eqn:V1; [|injection EV as <-|discriminate EV].
    2: { specialize (IHl reg st st1 tl c h (Err ea) E1 W C1 K1 PC Y FP O LO1 RL
           (stored_sub _ _ _ _ _ _ SU1 SO) (untouched_sub _ _ _ _ _ SU1 UN) eq_refl). exact IHl. }
    specialize (IHl reg st st1 tl c h (Ok a) E1 W C1 K1 PC Y FP O LO1 RL
           (stored_sub _ _ _ _ _ _ SU1 SO) (untouched_sub _ _ _ _ _ SU1 UN) eq_refl).
    destruct IHl as [(c1 & h1 & R1 & P1 & T1)|F1].
    2: { destruct r; right; exact F1. }
    pose proof R1 as (_ & SC1 & HK1 & _). destruct SC1 as (SF1 & _ & _ & _ & SY1).
    assert (RT : reg_index c1 rtemp = top_slot ls c (snd st)).
    { unfold top_slot, reg_index, register_to_parts, max_global. destruct (N.ltb_spec rtemp 64); [lia|].
      cbn [fst snd]. rewrite SF1. lia. }
    assert (TS : top_slot ls c1 (snd st2) = S (top_slot ls c (snd st))).
    { unfold top_slot. rewrite SF1. lia. }
    assert (IR : settles (next_pc (fst st3)) (S (top_slot ls c (snd st))) rtemp tr c1 h1
                   (match eval powf s rr with Some q => q | None => Err XHeap end) \/ eval powf s rr = None).
    { destruct (eval powf s rr) as [rv|] eqn:V2; [left|right; reflexivity]. rewrite <- TS.
      apply (IHr rtemp st2 st3 tr c1 h1 rv E4 W2).
      - rewrite A1. intros q i Q. apply C3. lia.
      - exact K3.
      - rewrite A1. exact P1.
      - congruence.
      - lia.
      - apply HK1.
      - exact LO2.
      - rewrite RT, TS. lia.
      - eapply stored_kept with (t := snd st); [exact LW|exact (stored_sub _ _ _ _ _ _ SU2 SO)|exact (untouched_sub _ _ _ _ _ SU2 UN)|exact R1|exact FP|lia].
      - intros v dd q pt Iv _ G. pose proof (var_slot ls v q pt c1 (snd st) LW G ltac:(lia)) as X.
        intros ->. unfold top_slot in X, RT. rewrite RT, SF1 in X. lia.
      - reflexivity. }
    destruct (eval powf s rr) as [[b|eb]|] eqn:V2; [| |discriminate EV].
    + destruct IR as [IR|IR]; [|discriminate IR]. destruct IR as [(c2 & h2 & R2 & P2 & T2)|F2].
      * pose proof R2 as (_ & SC2 & HK2 & KP2). destruct SC2 as (SF2 & _ & _ & _ & SY2).
        assert (R2' : reach (top_slot ls c (snd st)) reg c1 h1 c2 h2).
        { eapply reach_temp; [exact R2|lia|lia]. }
        assert (GR : get_reg c2 reg = get_reg c1 reg).
        { change (slot c2 (reg_index c2 reg) = slot c1 (reg_index c1 reg)). rewrite (reg_index_fp c1 c2) by exact SF2. rewrite KP2; [reflexivity| |].
          - rewrite (reg_index_fp c c1) by exact SF1. lia.
          - rewrite (reg_index_fp c c1), RT by exact SF1. lia. }
        assert (NE : reg <> rtemp).
        { intros <-. rewrite (reg_index_fp c c1) in RT by exact SF1. lia. }
        destruct (binop_runs (top_slot ls c (snd st)) _ _ _ _ _ _ _ _ _ _ c2 h2 a b E5) as (r2 & Q & OUT).
        -- intros q i Q. apply CI. lia.
        -- exact P2.
        -- congruence.
        -- lia.
        -- apply HK2.
        -- exact NE.
        -- rewrite (reg_index_fp c1 c2) by exact SF2. lia.
        -- rewrite GR. eapply stands_kept; [exact HK2|exact T1].
        -- exact T2.
        -- rewrite Q in EV. injection EV as <-. eapply outcome_after; [exact R1|].
           eapply outcome_after; [exact R2'|exact OUT].
      * assert (F3 : failing (top_slot ls c (snd st)) reg c h XHeap).
        { destruct F2 as (c2 & h2 & R2 & F2). exists c2, h2. split; [|exact F2].
          eapply reach_trans; [exact R1|]. eapply reach_temp; [exact R2|lia|lia]. }
        destruct r; right; exact F3.
    + injection EV as <-. destruct IR as [IR|IR]; [|discriminate IR].
      assert (X : forall e0, failing (S (top_slot ls c (snd st))) rtemp c1 h1 e0 -> failing (top_slot ls c (snd st)) reg c h e0).
      { intros e0 (c2 & h2 & R2 & F2). exists c2, h2. split; [|exact F2].
        eapply reach_trans; [exact R1|]. eapply reach_temp; [exact R2|lia|lia]. }
      destruct IR as [F2|F2]; [left|right]; apply X; exact F2.
  - destruct (compile_expr ls e reg st) as [[st1 tl]| |] eqn:E1; try discriminate H. cbn [bind] in H.
    destruct (compile_expr_frame ls e _ _ _ _ E1 W) as [[G1 N1] L1].
    assert (W1 : gwf (fst st1)) by (eapply grows_gwf; eassumption).
    destruct (unary_frame _ (next_pc (fst st1)) _ _ _ _ _ _ _ H W1 (le_n _)) as [[G2 N2] L2].
    assert (C1 : code_in img (fst st1) (next_pc (fst st)) (next_pc (fst st1))).
    { eapply code_before; [exact G2| |exact CI|reflexivity]. lia. }
    assert (K1 : consts_in img (fst st1)) by (eapply consts_before; eassumption).
    destruct (eval powf s e) as [[a|ea]|] eqn:V1; [|injection EV as <-|discriminate EV].
    2: { exact (IHe reg st st1 tl c h (Err ea) E1 W C1 K1 PC Y FP O LO RL SO UN eq_refl). }
    destruct (IHe reg st st1 tl c h (Ok a) E1 W C1 K1 PC Y FP O LO RL SO UN eq_refl)
      as [(c1 & h1 & R1 & P1 & T1)|F1]; [|destruct r; right; exact F1].
    pose proof R1 as (_ & SC1 & HK1 & _). destruct SC1 as (SF1 & _ & _ & _ & SY1).
    destruct (unop_runs ls _ _ _ _ _ _ _ c1 h1 (top_slot ls c (snd st)) a H W1) as (r2 & Q & OUT).
    + intros q i Q. apply CI. lia.
    + exact K.
    + exact P1.
    + congruence.
    + lia.
    + apply HK1.
    + unfold top_slot. rewrite SF1, N1. reflexivity.
    + rewrite (reg_index_fp c c1) by exact SF1. exact RL.
    + exact T1.
    + rewrite Q in EV. injection EV as <-. eapply outcome_after; [exact R1|exact OUT].
  - discriminate EV.
Qed.

Lemma cast_runs reg t target pos g g' lim c h a : etype_eqb t target = false ->
  cast_numerical reg t target pos g = Some g' -> code_in img g' (next_pc g) (next_pc g') ->
  c_pc c = next_pc g -> c_yield c = false -> heap_ok h -> stands_for cs h t (get_reg c reg) a ->
  exists r, convert target a = Some r /\ settles (next_pc g') lim reg target c h r.
Proof.
  intros NE H CI PC Y O A.
  destruct t, target; cbn [cast_numerical etype_eqb] in *; try discriminate; injection H as <-;
    destruct a; stands; try discriminate; cbn [convert].
  - assert (F : fetched img (c_pc c) (I1 DoubleToInteger reg)) by (rewrite PC; eapply code_emit1; [exact CI|lia|discriminate]).
    assert (D : dispatch powf img c h (I1 DoubleToInteger reg) = do_op1 c h DoubleToInteger reg) by reflexivity.
    cbn [do_op1] in D. match goal with Q : get_reg c reg = _ |- _ => rewrite Q in D end.
    eexists. split; [reflexivity|]. destruct (double_to_integer bits) as [z|] eqn:E.
    + pose proof (double_to_integer_range _ _ E).
      eapply outcome_write; [exact Y|exact F|exact D|apply heap_kept_refl; exact O|rewrite emit_pc; lia|].
      cbn [stands_for]. split; [reflexivity|]. split; [assumption|]. apply as_i32_as_u64. assumption.
    + eapply outcome_fail; eassumption.
  - assert (F : fetched img (c_pc c) (I1 IntegerToDouble reg)) by (rewrite PC; eapply code_emit1; [exact CI|lia|discriminate]).
    assert (D : dispatch powf img c h (I1 IntegerToDouble reg) = do_op1 c h IntegerToDouble reg) by reflexivity.
    cbn [do_op1] in D. match goal with Q : as_i32 (get_reg c reg) = _ |- _ => rewrite Q in D end.
    eexists. split; [reflexivity|].
    eapply outcome_write; [exact Y|exact F|exact D|apply heap_kept_refl; exact O|rewrite emit_pc; lia|].
    cbn [stands_for]. split; reflexivity.
Qed.

Lemma convert_same target a t h raw : etype_eqb t target = true -> stands_for cs h t raw a ->
  convert target a = Some (Ok a).
Proof. intros E H. destruct t, target; try discriminate E; destruct a; stands; try discriminate; reflexivity. Qed.

Lemma as_runs ls s e reg target st st' c h r : ls_wf ls ->
  compile_expr_as_type ls e reg target st = COk st' -> gwf (fst st) ->
  code_in img (fst st') (next_pc (fst st)) (next_pc (fst st')) -> consts_in img (fst st') ->
  c_pc c = next_pc (fst st) -> c_yield c = false -> 64 <= c_fp c -> heap_ok h -> literals_ok e ->
  reg_index c reg < top_slot ls c (snd st) ->
  stored ls (vars e) c h s -> untouched ls (vars e) s reg -> eval_as powf s target e = Some r ->
  settles (next_pc (fst st')) (top_slot ls c (snd st)) reg target c h r.
Proof.
  intros LW H W CI K PC Y FP O LO RL SO UN EV. unfold compile_expr_as_type, as_type in H.
  destruct (compile_expr ls e reg st) as [[st1 t1]| |] eqn:E1; try discriminate H. cbn [bind] in H.
  destruct (compile_expr_frame ls e _ _ _ _ E1 W) as [[G1 N1] L1].
  assert (W1 : gwf (fst st1)) by (eapply grows_gwf; eassumption).
  unfold eval_as in EV.
  assert (TT : etype_eqb t1 target = true -> t1 = target) by (destruct t1, target; (reflexivity || discriminate)).
  destruct (etype_eqb t1 target) eqn:TE.
  - apply COk_inj in H as <-.
    destruct (eval powf s e) as [[a|ea]|] eqn:V1; [|injection EV as <-|discriminate EV].
    + pose proof (expr_runs ls s e LW reg st st1 t1 c h (Ok a) E1 W CI K PC Y FP O LO RL SO UN V1) as X.
      rewrite <- (TT eq_refl). destruct X as [(c1 & h1 & R1 & P1 & T1)|F1]; [|destruct r; right; exact F1].
      rewrite (convert_same _ _ _ _ _ TE T1) in EV. injection EV as <-. left. exists c1, h1. auto.
    + exact (expr_runs ls s e LW reg st st1 t1 c h (Err ea) E1 W CI K PC Y FP O LO RL SO UN V1).
  - destruct (cast_numerical reg t1 target (start_pos e) (fst st1)) as [g2|] eqn:E2; [|discriminate H].
    apply COk_inj in H as <-. cbn [fst] in *.
    pose proof (cast_frame (next_pc (fst st1)) _ _ _ _ _ _ E2 W1 (le_n _)) as G2.
    pose proof (gr_len _ _ _ G2) as L2.
    assert (C1 : code_in img (fst st1) (next_pc (fst st)) (next_pc (fst st1))).
    { eapply code_before; [exact G2| |exact CI|reflexivity]. lia. }
    assert (K1 : consts_in img (fst st1)) by (eapply consts_before; eassumption).
    destruct (eval powf s e) as [[a|ea]|] eqn:V1; [|injection EV as <-|discriminate EV].
    2: { exact (expr_runs ls s e LW reg st st1 t1 c h (Err ea) E1 W C1 K1 PC Y FP O LO RL SO UN V1). }
    destruct (expr_runs ls s e LW reg st st1 t1 c h (Ok a) E1 W C1 K1 PC Y FP O LO RL SO UN V1)
      as [(c1 & h1 & R1 & P1 & T1)|F1]; [|destruct r; right; exact F1].
    pose proof R1 as (_ & SC1 & HK1 & _). destruct SC1 as (SF1 & _ & _ & _ & SY1).
    destruct (cast_runs reg t1 target _ _ _ (top_slot ls c (snd st)) c1 h1 a TE E2) as (r2 & Q & OUT).
    + intros q i Q. apply CI. lia.
    + exact P1.
    + congruence.
    + apply HK1.
    + exact T1.
    + rewrite Q in EV. injection EV as <-. eapply outcome_after; [exact R1|exact OUT].
Qed.

Lemma settles_computed pc' lim reg t c h r ls : settles pc' lim reg t c h r -> ls_wf ls -> 64 <= c_fp c ->
  (exists ts, lim = top_slot ls c ts) ->
  computed powf img c h pc' reg t (variables_kept ls reg c) r.
Proof.
  intros H W FP [ts ->].
  assert (Q : forall c' h', reach (top_slot ls c ts) reg c h c' h' -> variables_kept ls reg c c').
  { intros c' h' (_ & (SF & _) & _ & K) v q p G NE.
    change (slot c' (reg_index c' q) = slot c (reg_index c q)). rewrite (reg_index_fp c c') by exact SF. apply K.
    - eapply var_slot; eassumption.
    - intros E. apply NE. eapply reg_index_eq; eassumption. }
  assert (F : forall e, failing (top_slot ls c ts) reg c h e -> exists c' h', steps powf img c h c' h' /\
    same_control c c' /\ heap_kept h h' /\ variables_kept ls reg c c' /\ fails powf img c' h' e).
  { intros e (c' & h' & R & X). exists c', h'. pose proof (Q _ _ R). destruct R as (R1 & R2 & R3 & _). auto. }
  destruct r as [d|e]; destruct H as [H|H].
  - destruct H as (c' & h' & R & P & T). exists c', h'. pose proof (Q _ _ R). destruct R as (R1 & R2 & R3 & _). auto 8.
  - destruct (F _ H) as (c' & h' & A & B & C & D & E). exists c', h'. auto 8.
  - destruct (F _ H) as (c' & h' & A & B & C & D & E). exists c', h'. auto 8.
  - destruct (F _ H) as (c' & h' & A & B & C & D & E). exists c', h'. auto 8.
Qed.
End Run.

(** * Types *)

Lemma binop_type o pos reg t rtemp rt rpos (g : codegen) g' t' :
  (if is_relational o then relational_op else binary_op) o pos reg t rtemp rt rpos g = COk (g', t') ->
  op2_type o t rt t'.
Proof.
  intros H. destruct o, t, rt; cbn [is_relational relational_op binary_op make_boolean make_double make_text resolve_numeric] in H;
    try discriminate H; apply COk_inj, pair_inj in H as [_ <-]; clear;
    solve [constructor; unfold arithmetic, comparison, equality, logical, shift; auto 8].
Qed.

Lemma binop_accepts o pos reg t rtemp rt rpos g t' : op2_type o t rt t' ->
  exists g', (if is_relational o then relational_op else binary_op) o pos reg t rtemp rt rpos g = COk (g', t').
Proof.
  intros H. destruct H as [o H|o H|o H|o H| |o H|o H|o H|o H|o H|o H|o H|o H|o H];
    try (unfold arithmetic, comparison, equality, logical, shift in H; decompose [or] H; clear H; subst o);
    cbn [is_relational relational_op binary_op make_boolean make_double make_text resolve_numeric]; eexists; reflexivity.
Qed.

Lemma unop_type ls o pos reg t st st' t' : apply_unary ls o pos reg t st = COk (st', t') -> op1_type o t t'.
Proof.
  intros H. unfold apply_unary in H.
  destruct t, o; cbn [unary_boolean unary_double unary_integer] in H; try discriminate H;
    try (apply COk_inj, pair_inj in H as [_ <-]; constructor).
  destruct (open_scope ls st); try discriminate H. cbn [bind] in H.
  destruct (alloc _ _ _) as [[[? ?] ?]| |]; try discriminate H. cbn [bind] in H.
  destruct (emit_value _ _ _ _); try discriminate H. cbn [bind] in H.
  apply COk_inj, pair_inj in H as [_ <-]. constructor.
Qed.

Lemma expr_type ls e : forall reg st st' t, compile_expr ls e reg st = COk (st', t) -> has_type ls e t.
Proof.
  induction e as [b p|b p|z p|x p|v p|o l rr p IHl IHr|o e p IHe|v p args IH] using expr_rect';
    intros reg st st' t H; cbn [compile_expr] in H.
  1-4: unfold compile_literal in H; destruct (emit_value _ _ _ _); try discriminate H; cbn [bind] in H;
    apply COk_inj, pair_inj in H as [_ <-]; constructor.
  - constructor. unfold name_type. unfold compile_symbol in H.
    destruct (get_local_or_global ls v) as [[q [t0 n0|t0]]|[y|y|y|y w]]; try discriminate H.
    + apply COk_inj, pair_inj in H as [_ <-]. reflexivity.
    + destruct (get_callable _ _) as [md|]; [|discriminate H]. exists md. split; [reflexivity|].
      destruct (md_return md) as [t1|]; [|discriminate H]. f_equal.
      destruct (negb (accepts_callable v (Some t1))); [discriminate H|]. destruct (negb (is_argless md)); [discriminate H|].
      destruct (md_user md); [apply COk_inj, pair_inj in H as [_ <-]; reflexivity|].
      destruct (get_upcall _ _ _ _) as [[g idx]| |]; try discriminate H. cbn [bind] in H.
      destruct (fst (register_to_parts reg)); [|apply COk_inj, pair_inj in H as [_ <-]; reflexivity].
      destruct (open_scope _ _); try discriminate H. cbn [bind] in H.
      destruct (alloc _ _ _) as [[[? ?] ?]| |]; try discriminate H. cbn [bind] in H.
      apply COk_inj, pair_inj in H as [_ <-]. reflexivity.
  - destruct (compile_expr ls l reg st) as [[st1 tl]| |] eqn:E1; try discriminate H. cbn [bind] in H.
    unfold apply_binary in H.
    destruct (open_scope ls st1) as [sc| |] eqn:E2; try discriminate H. cbn [bind] in H.
    destruct (alloc sc (start_pos rr) st1) as [[[rtemp sc2] st2]| |] eqn:E3; try discriminate H. cbn [bind] in H.
    destruct (compile_expr ls rr rtemp st2) as [[st3 tr]| |] eqn:E4; try discriminate H. cbn [bind] in H.
    match type of H with bind ?q _ = _ => destruct q as [[g4 t4]| |] eqn:E5; try discriminate H end. cbn [bind] in H.
    apply COk_inj, pair_inj in H as [_ <-].
    econstructor; [eapply IHl; exact E1|eapply IHr; exact E4|]. eapply binop_type; exact E5.
  - destruct (compile_expr ls e reg st) as [[st1 tl]| |] eqn:E1; try discriminate H. cbn [bind] in H.
    econstructor; [eapply IHe; exact E1|eapply unop_type; exact H].
  - constructor. unfold applied_type. unfold compile_call in H.
    destruct (get_callable _ _) as [md|].
    + destruct (md_return md) as [t1|]; [|discriminate H]. f_equal.
      destruct (negb (accepts_callable v (Some t1))); [discriminate H|]. destruct (is_argless md); [discriminate H|].
      destruct (open_scope _ _); try discriminate H. cbn [bind] in H.
      destruct (alloc _ _ _) as [[[? ?] ?]| |]; try discriminate H. cbn [bind] in H.
      destruct (compile_args _ _ _ _ _) as [[[? ?] ?]| |]; try discriminate H. cbn [bind] in H.
      match type of H with bind ?q _ = _ => destruct q as [?| |]; try discriminate H end. cbn [bind] in H.
      apply COk_inj, pair_inj in H as [_ <-]. reflexivity.
    + destruct (get_local_or_global ls v) as [[q [t0 n0|t0]]|[y|y|y|y w]]; try discriminate H.
      unfold array_access in H. destruct (negb _); [discriminate H|].
      destruct (open_scope _ _); try discriminate H. cbn [bind] in H.
      destruct (integer_exprs _ _ _ _ _) as [[[[f|] ?] ?]| |]; try discriminate H. cbn [bind] in H.
      apply COk_inj, pair_inj in H as [_ <-]. eauto.
Qed.

Lemma op2_unique o a b t t' : op2_type o a b t -> op2_type o a b t' -> t = t'.
Proof.
  intros H H'. destruct H; inversion H'; subst; try reflexivity; exfalso;
    unfold arithmetic, comparison, equality, logical, shift in *; intuition congruence.
Qed.

Lemma type_unique ls e t : has_type ls e t -> forall t', has_type ls e t' -> t = t'.
Proof.
  induction 1 as [| | | |v p t N1|o l r p tl tr t H1 IH1 H2 IH2 T|o e p te t H1 IH1 T|v p args t A]; intros t' H'; inversion H'; subst;
    try reflexivity.
  - match goal with B : name_type ls v t' |- _ => rename B into N2 end. unfold name_type in *.
    destruct (get_local_or_global ls v) as [[q [t0 n0|t0]]|[y|y|y|y w]]; try contradiction; try congruence.
    destruct N1 as (m1 & A & B), N2 as (m2 & C & D). congruence.
  - match goal with A : has_type ls l _, B : has_type ls r _ |- _ => rewrite (IH1 _ A), (IH2 _ B) in T end.
    eapply op2_unique; eassumption.
  - match goal with A : has_type ls e _, B : op1_type o _ t' |- _ => rewrite (IH1 _ A) in T; rename B into T2 end.
    inversion T; subst; inversion T2; congruence.
  - match goal with B : applied_type ls v t' |- _ => rename B into N2 end.
    unfold applied_type in *. destruct (get_callable _ _); [congruence|].
    destruct A as (? & ? & A), N2 as (? & ? & B). congruence.
Qed.

(** ** Well-typed expressions compile *)

Lemma constant_resource c pos g : match get_constant c pos g with COk _ => True | CErr e => resource_error e | CPanic => False end.
Proof.
  unfold get_constant. destruct (id_get _ _ _) as [[? ?]|]; [exact I|].
  destruct (id_insert _ _ _ _ _) as [[? [? ?]]|]; exact I.
Qed.

Lemma value_resource r d pos g : match emit_value r d pos g with COk _ => True | CErr e => resource_error e | CPanic => False end.
Proof.
  destruct d as [b|x|z|x]; cbn [emit_value]; try exact I.
  - pose proof (constant_resource (CDouble x) pos g). destruct (get_constant _ _ _) as [[? ?]| |]; cbn [bind]; auto.
  - destruct (_ && _)%bool; [exact I|].
    pose proof (constant_resource (CInt z) pos g). destruct (get_constant _ _ _) as [[? ?]| |]; cbn [bind]; auto.
  - pose proof (constant_resource (CText x) pos g). destruct (get_constant _ _ _) as [[? ?]| |]; cbn [bind]; auto.
Qed.

Lemma alloc_resource s pos st : match alloc s pos st with COk _ => True | CErr e => resource_error e | CPanic => False end.
Proof.
  unfold alloc, scope_alloc. destruct (_ <? _)%N; [|exact I].
  unfold temp_register. destruct (_ <? _)%N; [|exact I]. destruct (register_local _); exact I.
Qed.

Lemma open_resource ls st : (N.of_nat (id_len (ls_locals ls)) < 256)%N -> exists s, open_scope ls st = COk s.
Proof.
  intros H. unfold open_scope, temp_scope, u8_ids. destruct (N.ltb_spec (N.of_nat (id_len (ls_locals ls))) 256); [eauto|lia].
Qed.

Lemma literal_resource d t pos reg st :
  match compile_literal d t pos reg st with COk (_, t') => t' = t | CErr e => resource_error e | CPanic => False end.
Proof.
  unfold compile_literal. pose proof (value_resource reg d pos (fst st)).
  destruct (emit_value _ _ _ _); cbn [bind]; auto.
Qed.

Lemma well_typed_compiles ls e : forall t, has_type ls e t -> call_free e -> names_defined ls e ->
  (N.of_nat (id_len (ls_locals ls)) < 256)%N -> forall reg st,
  match compile_expr ls e reg st with COk (_, t') => t' = t | CErr er => resource_error er | CPanic => False end.
Proof.
  induction e as [b p|b p|z p|x p|v p|o l rr p IHl IHr|o e p IHe|v p args IH] using expr_rect';
    intros t HT CF ND NL reg st; cbn [compile_expr call_free] in *; inversion HT; subst.
  1-4: apply literal_resource.
  - unfold compile_symbol. destruct (ND v (or_introl eq_refl)) as (r & t1 & G). rewrite G.
    unfold name_type in *. rewrite G in *. congruence.
  - destruct CF as [CF1 CF2].
    assert (ND1 : names_defined ls l) by (intros v Iv; apply ND; cbn [vars]; apply in_or_app; auto).
    assert (ND2 : names_defined ls rr) by (intros v Iv; apply ND; cbn [vars]; apply in_or_app; auto).
    match goal with A : has_type ls l _, B : has_type ls rr _, C : op2_type _ _ _ _ |- _ =>
      specialize (IHl _ A CF1 ND1 NL reg st); specialize (IHr _ B CF2 ND2 NL); rename C into T end.
    destruct (compile_expr ls l reg st) as [[st1 t1]|e1|]; cbn [bind]; [|exact IHl|exact IHl]. subst t1.
    unfold apply_binary. destruct (open_resource ls st1 NL) as [sc ->]. cbn [bind].
    pose proof (alloc_resource sc (start_pos rr) st1) as AR.
    destruct (alloc sc (start_pos rr) st1) as [[[rtemp sc2] st2]|e2|]; cbn [bind]; [|exact AR|exact AR].
    specialize (IHr rtemp st2).
    destruct (compile_expr ls rr rtemp st2) as [[st3 t3]|e3|]; cbn [bind]; [|exact IHr|exact IHr]. subst t3.
    match goal with |- context [_ o p reg tl rtemp tr (start_pos rr) (fst st3)] =>
      destruct (binop_accepts o p reg tl rtemp tr (start_pos rr) (fst st3) t T) as [g ->] end.
    reflexivity.
  - match goal with A : has_type ls e _, C : op1_type _ _ _ |- _ => specialize (IHe _ A CF ND NL reg st); rename C into T end.
    destruct (compile_expr ls e reg st) as [[st1 t1]|e1|]; cbn [bind]; [|exact IHe|exact IHe]. subst t1.
    inversion T; subst; unfold apply_unary; cbn [unary_boolean unary_double unary_integer]; try reflexivity.
    destruct (open_resource ls st1 NL) as [sc ->]. cbn [bind].
    pose proof (alloc_resource sc p st1) as AR.
    destruct (alloc sc p st1) as [[[temp sc2] st2]|e2|]; cbn [bind]; [|exact AR|exact AR].
    pose proof (value_resource temp (CInt 1) p (fst st2)) as VR.
    destruct (emit_value _ _ _ _); cbn [bind]; auto.
  - contradiction.
Qed.

(** ** Well-typed expressions have a value *)

Lemma apply2_typed powf o a b t : op2_type o (cdatum_etype a) (cdatum_etype b) t ->
  exists r, apply2 powf o a b = Some r /\ forall d, r = Ok d -> cdatum_etype d = t.
Proof.
  intros H.
  assert (K : forall q d, int_result q = Ok d -> cdatum_etype d = TInteger).
  { intros q d Q. destruct q; [|discriminate]. cbn in Q. apply Ok_inj in Q. subst d. reflexivity. }
  destruct a as [x|x|x|x], b as [y|y|y|y]; cbn [cdatum_etype] in H; cbn [apply2].
  1-16: inversion H; subst;
    repeat match goal with Q : arithmetic _ |- _ => unfold arithmetic in Q; decompose [or] Q; clear Q; subst
    | Q : comparison _ |- _ => unfold comparison in Q; decompose [or] Q; clear Q; subst
    | Q : equality _ |- _ => unfold equality in Q; decompose [or] Q; clear Q; subst
    | Q : logical _ |- _ => unfold logical in Q; decompose [or] Q; clear Q; subst
    | Q : shift _ |- _ => unfold shift in Q; decompose [or] Q; clear Q; subst end;
    eexists; (split; [exact eq_refl|]); intros d Q;
    first [exact (K _ _ Q) | apply Ok_inj in Q; subst d; reflexivity].
Qed.

Lemma apply1_typed o a t : op1_type o (cdatum_etype a) t ->
  exists r, apply1 o a = Some r /\ forall d, r = Ok d -> cdatum_etype d = t.
Proof.
  intros H.
  assert (K : forall q d, int_result q = Ok d -> cdatum_etype d = TInteger).
  { intros q d Q. destruct q; [|discriminate]. cbn in Q. apply Ok_inj in Q. subst d. reflexivity. }
  destruct a as [x|x|x|x]; cbn [cdatum_etype] in H; inversion H; subst; cbn [apply1];
    eexists; (split; [exact eq_refl|]); intros d Q;
    first [exact (K _ _ Q) | apply Ok_inj in Q; subst d; reflexivity].
Qed.

Lemma stands_type cs h t raw d : stands_for cs h t raw d -> t = cdatum_etype d.
Proof. destruct d; cbn; tauto. Qed.

Lemma typed_eval powf ls cs c h s e : forall t, has_type ls e t -> call_free e -> holds ls cs c h s e ->
  exists r, eval powf s e = Some r /\ forall d, r = Ok d -> cdatum_etype d = t.
Proof.
  induction e as [b p|b p|z p|x p|v p|o l rr p IHl IHr|o e p IHe|v p args IH] using expr_rect';
    intros t HT CF HO; cbn [eval call_free] in *; inversion HT; subst.
  1-4: eexists; split; [reflexivity|]; intros d Q; apply Ok_inj in Q; subst d; reflexivity.
  - destruct (HO v (or_introl eq_refl)) as (d & r & t1 & E & G & T). rewrite E. eexists. split; [reflexivity|].
    intros d' Q. apply Ok_inj in Q. subst d'. unfold name_type in *. rewrite G in *. apply stands_type in T. congruence.
  - destruct CF as [CF1 CF2].
    assert (HO1 : holds ls cs c h s l) by (intros v Iv; apply HO; cbn [vars]; apply in_or_app; auto).
    assert (HO2 : holds ls cs c h s rr) by (intros v Iv; apply HO; cbn [vars]; apply in_or_app; auto).
    match goal with A : has_type ls l _, B : has_type ls rr _, C : op2_type _ _ _ _ |- _ =>
      destruct (IHl _ A CF1 HO1) as (r1 & E1 & T1); destruct (IHr _ B CF2 HO2) as (r2 & E2 & T2); rename C into T end.
    rewrite E1. destruct r1 as [a|e1]; [|eexists; split; [reflexivity|discriminate]].
    rewrite E2. destruct r2 as [b|e2]; [|eexists; split; [reflexivity|discriminate]].
    rewrite <- (T1 a eq_refl), <- (T2 b eq_refl) in T. exact (apply2_typed powf o a b t T).
  - match goal with A : has_type ls e _, C : op1_type _ _ _ |- _ =>
      destruct (IHe _ A CF HO) as (r1 & E1 & T1); rename C into T end.
    rewrite E1. destruct r1 as [a|e1]; [|eexists; split; [reflexivity|discriminate]].
    rewrite <- (T1 a eq_refl) in T. exact (apply1_typed o a t T).
  - contradiction.
Qed.

Lemma as_type_value powf ls cs c h s e reg target st st' : compile_expr_as_type ls e reg target st = COk st' ->
  call_free e -> holds ls cs c h s e -> exists r, eval_as powf s target e = Some r.
Proof.
  intros H CF HO. unfold compile_expr_as_type, as_type in H.
  destruct (compile_expr ls e reg st) as [[st1 t1]| |] eqn:E1; try discriminate H. cbn [bind] in H.
  destruct (typed_eval powf ls cs c h s e t1 (expr_type _ _ _ _ _ _ E1) CF HO) as (r & E & T).
  unfold eval_as. rewrite E. destruct r as [d|]; [|eauto]. specialize (T d eq_refl). subst t1.
  destruct (etype_eqb (cdatum_etype d) target) eqn:Q.
  - destruct d, target; try discriminate Q; cbn [convert]; eauto.
  - destruct (cast_numerical reg (cdatum_etype d) target (start_pos e) (fst st1)) eqn:C; [|discriminate H].
    destruct d, target; cbn [cast_numerical cdatum_etype] in C; try discriminate; cbn [convert]; eauto.
Qed.

Lemma run_program_more powf img s : forall n m c h, run_program powf n img c h = Some s -> n <= m ->
  run_program powf m img c h = Some s.
Proof.
  induction n as [|n IH]; intros [|m] c h H L; try discriminate H; try lia. cbn [run_program] in *.
  destruct (step powf img c h) as [c' h'|[ | | | | | ] c' h'|]; auto with arith.
Qed.

Lemma exits_once p a b : program_exits p a -> a <> b -> ~ program_exits p b.
Proof.
  intros (i & C & R) D (i' & C' & R'). rewrite C in C'. injection C' as <-.
  destruct (R (fun _ _ => 0%N)) as (n & E), (R' (fun _ _ => 0%N)) as (m & E').
  apply (run_program_more _ _ _ _ (n + m)) in E; [|lia]. apply (run_program_more _ _ _ _ (n + m)) in E'; [|lia].
  congruence.
Qed.
