(** SELECT runs the first case that admits the tested value. *)
From Verif Require Import Base Range_Proofs Bytecode_Model Bytecode_Spec Mem_Model Mem_Spec Num_Model Num_Spec Vm_Model Vm_Spec Vm_Proofs Ids_Model Ids_Proofs
  Ast_Model Syms_Model Syms_Proofs Codegen_Model Codegen_Proofs Exprs_Model Exprs_Proofs Top_Model Top_Proofs Layout_Proofs
  Args_Spec Eval_Spec Eval_Proofs Call_Spec Run_Proofs Call_Proofs Exec_Spec Exec_Proofs Flow_Proofs.

Section Compare.
Variable powf : N -> N -> N.
Variable img : image.
Notation cs := (i_constants img).
Notation reach := (reach powf img).

(** The comparison at the end of a guard. *)
Lemma relop_dispatch o t op c h x lhs rhs a b : case_relop_instr o t = Some op ->
  stands_for cs h t (get_reg c lhs) a -> stands_for cs h t (get_reg c rhs) b ->
  exists v, apply2 powf (case_op o) a b = Some (Ok (CBool v)) /\
    dispatch powf img c h (I3 op x lhs rhs) = RNext (Vm_Model.next_pc (set_reg c x (b2n v))) h.
Proof.
  intros H A B. destruct a as [a|a|a|a], b as [b|b|b|b]; cbn [stands_for] in A, B;
    repeat match goal with K : _ /\ _ |- _ => destruct K end; subst t; try discriminate;
    destruct o; try discriminate H; injection H as <-; eexists; (split; [exact eq_refl|]); cbn [dispatch do_op3].
  all: unfold do_binary_integer_predicate_op, do_binary_boolean_op, do_binary_double_predicate_op, do_binary_text_op.
  all: repeat match goal with K : as_i32 _ = _ |- _ => rewrite K; clear K | K : deref_text _ _ _ = _ |- _ => rewrite K; clear K
    | K : get_reg _ _ = _ |- _ => rewrite K; clear K end.
  all: try exact eq_refl.
  all: try (destruct a, b; exact eq_refl).
  all: rewrite ?Z.gtb_ltb, ?Z.geb_leb; exact eq_refl.
Qed.

Lemma relop_runs pos lhs tt_ rhs rt o cond g g' c h a b :
  compile_case_relop pos lhs tt_ rhs rt o cond g = COk g' ->
  code_in img g' (next_pc g) (next_pc g') -> c_pc c = next_pc g -> c_yield c = false ->
  64 <= c_fp c -> heap_ok h -> lhs <> rhs -> reg_index c lhs <= reg_index c rhs -> reg_index c lhs <= reg_index c cond ->
  stands_for cs h tt_ (get_reg c lhs) a -> stands_for cs h rt (get_reg c rhs) b ->
  exists v c', apply2 powf (case_op o) a b = Some (Ok (CBool v)) /\
    reach (reg_index c lhs) lhs c h c' h /\ c_pc c' = next_pc g' /\ get_reg c' cond = b2n v.
Proof.
  intros H CI PC Y FP O NE R1 R2 A B. unfold compile_case_relop in H.
  assert (ONE : forall t op, tt_ = t -> rt = t -> case_relop_instr o t = Some op -> g' = emit (I3 op cond lhs rhs) pos g ->
    exists v c', apply2 powf (case_op o) a b = Some (Ok (CBool v)) /\
    reach (reg_index c lhs) lhs c h c' h /\ c_pc c' = next_pc g' /\ get_reg c' cond = b2n v).
  { intros t op -> -> OP ->. destruct (relop_dispatch _ _ _ c h cond _ _ _ _ OP A B) as (v & E & D).
    exists v, (Vm_Model.next_pc (set_reg c cond (b2n v))). split; [exact E|]. split; [|split].
    - eapply reach_write; [exact Y|rewrite PC; eapply code_emit1; [exact CI|lia|discriminate]|exact D|apply heap_kept_refl; exact O|right; exact R2].
    - rewrite emit_pc, <- PC. reflexivity.
    - apply get_written. }
  assert (TWO : forall r op z, get_reg c r = get_reg c r -> r = lhs \/ r = rhs -> as_i32 (get_reg c r) = z ->
    case_relop_instr o TDouble = Some op -> g' = emit (I3 op cond lhs rhs) pos (emit (I1 IntegerToDouble r) pos g) ->
    (forall c1, get_reg c1 r = f64_of_i32 z -> (forall r', r' <> r -> get_reg c1 r' = get_reg c r') ->
       exists a' b', stands_for cs h TDouble (get_reg c1 lhs) a' /\ stands_for cs h TDouble (get_reg c1 rhs) b' /\
         apply2 powf (case_op o) a' b' = apply2 powf (case_op o) a b) ->
    exists v c', apply2 powf (case_op o) a b = Some (Ok (CBool v)) /\
    reach (reg_index c lhs) lhs c h c' h /\ c_pc c' = next_pc g' /\ get_reg c' cond = b2n v).
  { intros r op z _ RR X OP -> K. destruct (code_emit2 img _ _ _ _ _ _ CI (le_n _)) as [F1 F2]; try discriminate.
    destruct (promote_step powf img (reg_index c lhs) lhs r c h z Y) as (c1 & RE & P1 & V1 & V2); auto.
    { rewrite PC. exact F1. }
    { destruct RR as [->| ->]; auto. }
    destruct (K c1 V1 (V2 FP)) as (a' & b' & A' & B' & E).
    destruct (relop_dispatch _ _ _ c1 h cond _ _ _ _ OP A' B') as (v & E' & D).
    exists v, (Vm_Model.next_pc (set_reg c1 cond (b2n v))). split; [congruence|]. split; [|split].
    - eapply reach_trans; [exact RE|]. destruct RE as (_ & SC & _ & _).
      eapply reach_write; [destruct SC as (? & ? & ? & ? & ?); congruence|rewrite P1, PC; exact F2|exact D|apply heap_kept_refl; exact O|].
      right. rewrite (reg_index_fp c c1 cond) by apply SC. exact R2.
    - rewrite !emit_pc. change (S (c_pc c1) = S (S (next_pc g))). rewrite P1, PC. reflexivity.
    - apply get_written. }
  destruct a as [a|a|a|a], b as [b|b|b|b]; cbn [stands_for] in A, B;
    repeat match goal with K : _ /\ _ |- _ => destruct K end; subst tt_ rt; cbn [etype_eqb] in H; try discriminate H.
  - destruct (case_relop_instr o TBoolean) as [op|] eqn:OP; [|discriminate H]. apply COk_inj in H. eapply ONE; eauto.
  - destruct (case_relop_instr o TDouble) as [op|] eqn:OP; [|discriminate H]. apply COk_inj in H. eapply ONE; eauto.
  - destruct (case_relop_instr o TDouble) as [op|] eqn:OP; [|discriminate H]. apply COk_inj in H.
    eapply (TWO rhs op b); auto. intros c1 V1 V2. exists (CDouble a), (CDouble (f64_of_i32 b)).
    split; [cbn [stands_for]; split; [reflexivity|rewrite V2; assumption]|]. split; [cbn [stands_for]; split; [reflexivity|exact V1]|].
    exact eq_refl.
  - destruct (case_relop_instr o TDouble) as [op|] eqn:OP; [|discriminate H]. apply COk_inj in H.
    eapply (TWO lhs op a); auto. intros c1 V1 V2. exists (CDouble (f64_of_i32 a)), (CDouble b).
    split; [cbn [stands_for]; split; [reflexivity|exact V1]|]. split; [cbn [stands_for]; split; [reflexivity|rewrite V2 by congruence; assumption]|].
    exact eq_refl.
  - destruct (case_relop_instr o TInteger) as [op|] eqn:OP; [|discriminate H]. apply COk_inj in H. eapply ONE; eauto.
  - destruct (case_relop_instr o TText) as [op|] eqn:OP; [|discriminate H]. apply COk_inj in H. eapply ONE; eauto.
Qed.
End Compare.

Section Select.
Variable powf : N -> N -> N.
Variable img : image.
Context {W : Type}.
Variable upcall : N -> N -> nat -> image -> ctx -> heap -> W -> option (upcall_result W).
Variable L : lsyms.
Variable hidden : N -> option hdatum.
Variable calls : ustr -> list given -> env W -> res vm_error (option cdatum) -> env W -> Prop.
Variable ups : list ustr.
Variable entry : point -> N -> Prop.
Hypothesis L_ok : tables_ok L.
Hypothesis L_ns : no_shadowing L.
Hypothesis L_ap : names_apart L.
Hypothesis functions_ok : functions_obey powf img upcall L hidden calls ups entry.
Hypothesis calls_local : forall k gs s r s' k', calls k gs s r s' -> is_shared L k' = false -> (r = Ok None -> forall t, ~ In (GRef k' t) gs) -> vals s k' = None -> vals s' k' = None.
Notation cs := (i_constants img).
Notation callable := (get_callable (ls_global L)).
Notation state ls := (holding L hidden cs ls None).
Notation has := (has img L ups entry).
Notation go := (go powf img upcall).
Notation stuck := (stuck powf img upcall).
Notation gfails := (gfails powf img upcall).
Notation greach := (greach powf img upcall).
Notation loaded := (loaded img ups entry).
Notation evals := (evals powf callable (is_variable L) calls).
Notation compares := (compares powf callable (is_variable L) calls).
Notation admits := (admits powf callable (is_variable L) calls).
Notation admitted := (admitted powf callable (is_variable L) calls).
Implicit Types (h : mem W) (s : env W).

(** The tables with the tested value in a temporary. *)
Variables (l : lsyms) (test_reg : N) (test_type : etype) (d : cdatum).
Hypothesis l_in : ext l L.
Hypothesis test_is : (test_reg + 1 = 64 + N.of_nat (id_len (ls_locals l)) + ls_active_temps l)%N.
Hypothesis active_pos : (0 < ls_active_temps l)%N.

Record held s (c : ctx) h : Prop := mkHeld {
  he_state : state l c h s;
  he_value : stands_for cs h test_type (get_reg c test_reg) d
}.

Definition temp (n : N) : N := (64 + N.of_nat (id_len (ls_locals l)) + n)%N.
Lemma temp_index c n : reg_index c (temp n) = c_fp c + N.to_nat (N.of_nat (id_len (ls_locals l)) + n).
Proof. unfold temp. rewrite <- N.add_assoc. apply local_index. Qed.
Lemma temp_idle c n skip : idle l skip c (reg_index c (temp n)).
Proof. right. left. rewrite temp_index. lia. Qed.
Lemma temp_dest n skip : dest l skip (temp n).
Proof. right. unfold temp. lia. Qed.
Lemma temp_kept n m c h c' h' : greach l None (reg_index c (temp n)) (temp n) c h c' h' -> (m < n)%N ->
  get_reg c' (temp m) = get_reg c (temp m).
Proof.
  intros (_ & SF & _ & KP) LT. unfold get_reg. rewrite (reg_index_fp c c' (temp m)) by apply SF.
  apply KP; [| |apply temp_idle]; rewrite !temp_index; lia.
Qed.

Lemma held_reach s s' n c h c' h' : held s c h -> (ls_active_temps l <= n)%N ->
  greach l None (reg_index c (temp n)) (temp n) c h c' h' -> state l c' h' s' -> held s' c' h'.
Proof.
  intros [_ V] LE R ST. constructor; [exact ST|].
  assert (TT : test_reg = temp (ls_active_temps l - 1)) by (unfold temp; lia).
  rewrite TT, (temp_kept n _ _ _ _ _ R) by lia. rewrite TT in V. eapply stands_texts; [|exact V]. eapply greach_texts, R.
Qed.
Lemma held_pc s c h pc : held s c h -> held s (set_pc c pc) h.
Proof. intros [ST V]. constructor; [apply state_pc, ST|exact V]. Qed.

(** Comparing with an expression, given three temporaries. *)
Lemma compare_runs pos e o n st st' c h s res s1 :
  case_compare l pos test_reg test_type e o (temp n) (temp (n + 1)) (temp (n + 2)) st = COk st' -> gwf (fst st) ->
  loaded (fst st') (next_pc (fst st)) -> in32 e -> (temp (n + 2) < 256)%N ->
  held s c h -> c_pc c = next_pc (fst st) -> (ls_active_temps l <= n)%N -> (n + 3 <= ts_next (snd st))%N ->
  compares s d o e res s1 ->
  stuck c h \/
  match res with
  | Ok b => exists c' h', greach l None (reg_index c (temp n)) (temp n) c h c' h' /\ c_pc c' = next_pc (fst st') /\ held s1 c' h' /\
              get_reg c' (temp (n + 2)) = b2n b
  | Err er => gfails c h er (world s1)
  end.
Proof.
  intros H W0 LD LO TB HE PC LN LT CW. unfold case_compare in H.
  apply bind_ok in H as ([st1 rt] & E & H). apply bind_ok in H as (g & E0 & H). apply COk_inj in H. subst st'. cbn [fst snd] in *.
  set (lhs := temp n) in *. set (rhs := temp (n + 1)) in *. set (cond := temp (n + 2)) in *.
  pose proof (egrows_emit (next_pc (fst st)) (IMove lhs test_reg) pos st W0 (le_n _)) as G0.
  assert (W1 := egrows_gwf _ _ _ G0 W0).
  destruct (compile_expr_frame l e _ _ _ _ E W1) as [G1 P1]. assert (W2 := egrows_gwf _ _ _ G1 W1).
  assert (EP : next_pc (fst (e_emit (IMove lhs test_reg) pos st)) = S (next_pc (fst st))) by apply e_emit_pc.
  assert (G2 : grows (next_pc (fst st1)) (fst st1) g).
  { unfold compile_case_relop in E0.
    destruct test_type, rt; cbn [etype_eqb] in E0;
      match type of E0 with context [case_relop_instr ?o ?t] => destruct (case_relop_instr o t); try discriminate E0 | _ => try discriminate E0 end;
      apply COk_inj in E0; subst g; first [apply grows_emit; [assumption|apply le_n]|
        eapply grows_trans; [apply grows_emit; [assumption|apply le_n]|apply grows_emit; [|rewrite emit_pc; lia]];
        eapply grows_gwf; [apply (grows_emit 0); [assumption|lia]|assumption]]. }
  assert (LD1 : loaded (fst st1) (next_pc (fst st))) by (eapply loaded_before; [exact G2|lia|exact LD]).
  assert (LD0 : loaded (fst (e_emit (IMove lhs test_reg) pos st)) (next_pc (fst st))).
  { eapply loaded_before; [apply G1|lia|exact LD1]. }
  (* the copy *)
  pose proof (knowing_ext L L_ok L_ns L_ap l l_in) as K.
  assert (F0 : fetched img (c_pc c) (IMove lhs test_reg)).
  { rewrite PC. eapply loaded_at; [exact LD0|apply le_n|discriminate]. }
  set (c1 := Vm_Model.next_pc (set_reg c lhs (get_reg c test_reg))).
  destruct (gwrite powf img upcall L hidden l None K (reg_index c lhs) lhs lhs c h s _ (get_reg c test_reg) (he_state _ _ _ HE) F0 eq_refl
    (temp_dest n None) (or_introl eq_refl)) as [R0 H0]. fold c1 in R0, H0.
  assert (HE1 : held s c1 h) by (eapply held_reach; [exact HE|exact LN|exact R0|exact H0]).
  assert (V1 : stands_for cs h test_type (get_reg c1 lhs) d) by (unfold c1; rewrite get_written; apply HE).
  assert (FPc : c_fp c1 = c_fp c) by reflexivity.
  (* the expression *)
  assert (CW' : exists r, evals s e r s1 /\ match r with Err x => res = Err x
      | Ok v => exists b, apply2 powf (case_op o) d v = Some (Ok (CBool b)) /\ res = Ok b end).
  { inversion CW as [v b s' X1 X2|x s' X1]; subst; [exists (Ok v)|exists (Err x)]; split; try exact X1; [exists b; auto|reflexivity]. }
  destruct CW' as (r & EV & RE).
  assert (B : gsettles powf img upcall L hidden l None (next_pc (fst st1)) (S (reg_index c1 rhs)) rhs rt c1 h r s1).
  { eapply (expr_works powf img upcall L hidden calls ups entry functions_ok calls_local l None K e rhs (e_emit (IMove lhs test_reg) pos st) st1);
      [exact E|exact W1| |apply fine_none, LO|exact H0| | | |apply temp_dest| |exact EV].
    - eapply loaded_after; [exact LD1|lia].
    - change (S (c_pc c) = next_pc (fst (e_emit (IMove lhs test_reg) pos st))). rewrite EP, PC. reflexivity.
    - split; [apply le_n|]. unfold rhs. rewrite temp_index. unfold top_slot. cbn [e_emit snd]. lia.
    - unfold rhs, cond, temp in *. lia.
    - intros v p md _ _ _. apply le_n. }
  assert (LR : reg_index c lhs < reg_index c1 rhs) by (unfold lhs, rhs; rewrite !temp_index, FPc; lia).
  destruct B as [B|B]; [left; eapply stuck_after; [exact R0|exact B]|].
  destruct r as [v|x]; [|subst res; right; eapply gfails_after; [exact R0|exact B]].
  destruct B as (c2 & h2 & R2 & P & Q & H2). destruct RE as (b & AP & ->).
  pose proof (greach_fp _ _ _ _ _ _ _ _ _ _ _ R2) as FP2.
  assert (R02 : greach l None (reg_index c lhs) lhs c h c2 h2).
  { eapply greach_trans; [exact R0|]. eapply greach_temp; [exact R2|lia|lia]. }
  assert (V2 : stands_for cs h2 test_type (get_reg c2 lhs) d).
  { assert (Q2 : get_reg c2 lhs = get_reg c1 lhs).
    { unfold get_reg. rewrite (reg_index_fp c1 c2 lhs) by exact FP2. destruct R2 as (_ & _ & _ & KP). apply KP.
      - rewrite (reg_index_fp c c1 lhs FPc). lia.
      - rewrite (reg_index_fp c c1 lhs FPc). lia.
      - apply temp_idle. }
    rewrite Q2. eapply stands_texts; [eapply greach_texts, R2|exact V1]. }
  (* the comparison *)
  destruct (relop_runs powf img pos lhs test_type rhs rt o cond (fst st1) g c2 h2 d v E0) as (b' & c3 & AP' & R3 & P3 & V3); auto.
  - intros p i R C N1. apply LD; [lia|exact C|exact N1].
  - apply H2.
  - apply H2.
  - apply H2.
  - unfold lhs, rhs, temp. lia.
  - unfold lhs, rhs. rewrite !temp_index. lia.
  - unfold lhs, cond. rewrite !temp_index. lia.
  - rewrite AP in AP'. injection AP' as <-. right. exists c3, (mkMem h2 (m_world h2)).
    assert (R3' : greach l None (reg_index c lhs) lhs c2 h2 c3 (mkMem h2 (m_world h2))).
    { rewrite (reg_index_fp c c2 lhs) in R3 by congruence. apply greach_reach; [exact R3|apply H2]. }
    assert (H3 : state l c3 (mkMem h2 (m_world h2)) s1).
    { eapply holding_reach; [exact K|exact H2|exact R3|apply temp_dest|]. unfold lhs. rewrite temp_index. lia. }
    assert (R03 : greach l None (reg_index c lhs) lhs c h c3 (mkMem h2 (m_world h2))) by (eapply greach_trans; eassumption).
    split; [exact R03|]. split; [exact P3|]. split; [|exact V3]. eapply held_reach; [exact HE|exact LN|exact R03|exact H3].
Qed.

(** What follows is about a whole SELECT, whose code ends up in [X]. *)
Variables (x0 X : sst).
Hypothesis X_has : has x0 X.
Definition up (st : est) : sst := (set_gen (fst st) (fst x0), l).
Lemma up_pc st : s_pc (up st) = next_pc (fst st).
Proof. reflexivity. Qed.
Lemma later_up st st' : egrows (next_pc (fst st)) st st' -> later (up st) (up st').
Proof.
  intros [G _]. constructor.
  - intros p i C _. change (code_at (up st') p) with (nth_error (g_code (fst st')) p).
    rewrite (gr_code _ _ _ G); [exact C|]. apply (code_lt (up st) p i C).
  - apply ext_refl.
  - apply (gr_const _ _ _ G).
  - apply (gr_up _ _ _ G).
  - intros f F. destruct (gr_fix _ _ _ G) as (new & E & _). change (In f (g_fixups (fst st'))). rewrite E. apply in_or_app. auto.
  - intros l0 a; exact (gr_labels _ _ _ G l0 a).
  - intros a md LT H. exists md. change (nth_error (g_instrs (fst st')) a = Some md /\ m_args md = m_args md).
    rewrite (gr_meta _ _ _ G) by exact LT. auto.
  - apply (gr_len _ _ _ G).
Qed.
Lemma up_code st p i : later (up st) X -> s_pc x0 <= p -> code_at (up st) p = Some i -> i <> INop -> fetched img p i.
Proof. intros LA LE C N1. eapply has_at; [exact X_has|apply (la_code _ _ LA); eassumption|exact N1|exact LE]. Qed.
Lemma up_in (st st' : est) : later (up st') X -> s_pc x0 <= next_pc (fst st) -> loaded (fst st') (next_pc (fst st)).
Proof. intros LA LE. apply (has_load _ _ _ _ _ _ (has_inner img L ups entry x0 X (up st) (up st') X_has LA LE)). Qed.

Definition guard_literals (g : case_guard) : Prop :=
  match g with CIs _ e => in32 e | CTo a b => in32 a /\ in32 b end.

Lemma alloc_temp sc pos st r sc' st' : alloc sc pos st = COk (r, sc', st') -> sc_nlocals sc = N.of_nat (id_len (ls_locals l)) ->
  fst st' = fst st /\ r = temp (ts_next (snd st)) /\ ts_next (snd st') = (ts_next (snd st) + 1)%N /\
  sc_nlocals sc' = N.of_nat (id_len (ls_locals l)) /\ (temp (ts_next (snd st)) < 256)%N.
Proof.
  intros A N1. apply alloc_ok in A as (A1 & _ & A3 & _ & A5 & A6 & A7). rewrite A3, N1 in *. unfold temp.
  repeat (split; [assumption|]). lia.
Qed.

Lemma guard_admits g st cond pos st' c h s res s1 : compile_case_guard l test_reg test_type g st = COk (cond, pos, st') -> gwf (fst st) ->
  later (up st') X -> s_pc x0 <= next_pc (fst st) -> guard_literals g -> held s c h -> c_pc c = next_pc (fst st) ->
  (ls_active_temps l <= ts_next (snd st))%N -> admits s d g res s1 ->
  stuck c h \/
  match res with
  | Ok b => exists c' h', go c h c' h' /\ c_pc c' = next_pc (fst st') /\ held s1 c' h' /\ get_reg c' cond = b2n b
  | Err er => gfails c h er (world s1)
  end.
Proof.
  intros H W0 LA LE LO HE PC AC AD. pose proof (up_in _ _ LA LE) as LD. pose proof (hd_fp _ _ _ _ _ _ _ _ (he_state _ _ _ HE)) as FP.
  set (n := ts_next (snd st)) in *. destruct g as [o e|from to]; cbn [compile_case_guard guard_literals] in *.
  - apply bind_ok in H as (sc & E & H). apply bind_ok in H as ([[lhs sc1] st1] & E1 & H).
    apply bind_ok in H as ([[rhs sc2] st2] & E2 & H). apply bind_ok in H as ([[cd sc3] st3] & E3 & H).
    apply bind_ok in H as (st4 & E4 & H). apply COk_inj in H. apply pair_inj in H as [H <-]. apply pair_inj in H as [<- _].
    apply open_ok in E as (_ & _ & SN). destruct (alloc_temp _ _ _ _ _ _ E1 SN) as (F1 & -> & T1 & SN1 & _).
    destruct (alloc_temp _ _ _ _ _ _ E2 SN1) as (F2 & -> & T2 & SN2 & _). destruct (alloc_temp _ _ _ _ _ _ E3 SN2) as (F3 & -> & T3 & _ & TB).
    rewrite T2, T1, <- N.add_assoc in E4 |- *. change (1 + 1)%N with 2%N in *. fold n in E4, T1, T2, T3 |- *.
    assert (F : fst st3 = fst st) by congruence. 
    rewrite T2, T1, <- N.add_assoc in TB. change (1 + 1)%N with 2%N in TB. fold n in TB.
    assert (AD' : compares s d o e res s1) by (inversion AD; assumption).
    destruct (compare_runs _ _ _ n st3 st4 c h s res s1 E4) as [K|K]; auto; try (rewrite F; assumption); try (cbn [close fst] in *; assumption).
    + rewrite T3, T2, T1. fold n. lia.
    + right. destruct res as [b|er]; [|exact K]. destruct K as (c' & h' & R & P & HE' & V). exists c', h'.
      split; [eapply go_reach; [exact R|rewrite temp_index; lia|exact FP]|]. split; [exact P|]. split; [exact HE'|exact V].
  - apply bind_ok in H as (sc & E & H). apply bind_ok in H as ([[r1 sc1] st1] & E1 & H).
    apply bind_ok in H as ([[r2 sc2] st2] & E2 & H). apply bind_ok in H as ([[r3 sc3] st3] & E3 & H).
    apply bind_ok in H as ([[r4 sc4] st4] & E4 & H). apply bind_ok in H as ([[r5 sc5] st5] & E5 & H).
    apply bind_ok in H as ([[r6 sc6] st6] & E6 & H). apply bind_ok in H as ([[r7 sc7] st7] & E7 & H).
    apply bind_ok in H as (sta & Ea & H). apply bind_ok in H as (stb & Eb & H).
    apply COk_inj in H. apply pair_inj in H as [H <-]. apply pair_inj in H as [<- _].
    apply open_ok in E as (_ & _ & SN). destruct (alloc_temp _ _ _ _ _ _ E1 SN) as (F1 & -> & T1 & SN1 & _).
    destruct (alloc_temp _ _ _ _ _ _ E2 SN1) as (F2 & -> & T2 & SN2 & _). destruct (alloc_temp _ _ _ _ _ _ E3 SN2) as (F3 & -> & T3 & SN3 & TB3).
    destruct (alloc_temp _ _ _ _ _ _ E4 SN3) as (F4 & -> & T4 & SN4 & TB4). destruct (alloc_temp _ _ _ _ _ _ E5 SN4) as (F5 & -> & T5 & SN5 & TB5).
    destruct (alloc_temp _ _ _ _ _ _ E6 SN5) as (F6 & -> & T6 & SN6 & TB6). destruct (alloc_temp _ _ _ _ _ _ E7 SN6) as (F7 & -> & T7 & SN7 & TB7).
    assert (F : fst st7 = fst st) by congruence. clear E1 E2 E3 E4 E5 E6 E7 TB4 TB5 TB7 F1 F2 F3 F4 F5 F6 F7 SN1 SN2 SN3 SN4 SN5 SN6 SN7 SN.
    assert (Q : ts_next (snd st) = n /\ ts_next (snd st1) = (n + 1)%N /\ ts_next (snd st2) = (n + 2)%N /\ ts_next (snd st3) = (n + 3)%N /\
      ts_next (snd st4) = (n + 3 + 1)%N /\ ts_next (snd st5) = (n + 3 + 2)%N /\ ts_next (snd st6) = (n + 6)%N /\ ts_next (snd st7) = (n + 7)%N) by (unfold n; lia).
    destruct Q as (Q0 & Q1 & Q2 & Q3 & Q4 & Q5 & Q6 & Q7). rewrite Q0, Q1, Q2, Q3, Q4, Q5, Q6 in *. clear T1 T2 T3 T4 T5 T6 T7.
    set (p0 := start_pos from) in *. cbn [close fst e_emit] in *.
    destruct (case_compare_frame _ _ _ _ _ _ _ _ _ _ _ Ea ltac:(rewrite F; exact W0)) as [Ga Na].
    assert (Wa : gwf (fst sta)) by (eapply grows_gwf; [exact Ga|rewrite F; exact W0]).
    destruct (case_compare_frame _ _ _ _ _ _ _ _ _ _ _ Eb Wa) as [Gb Nb].
    assert (Wb : gwf (fst stb)) by (eapply grows_gwf; [exact Gb|exact Wa]).
    assert (Pa := gr_len _ _ _ Ga). assert (Pb := gr_len _ _ _ Gb). rewrite F in Pa.
    assert (LDb : loaded (fst stb) (next_pc (fst st))) by (eapply loaded_emit; [exact LD|exact Wb|lia]).
    assert (LDa : loaded (fst sta) (next_pc (fst st7))) by (rewrite F; eapply loaded_before; [exact Gb|lia|exact LDb]).
    assert (LDc : loaded (fst stb) (next_pc (fst sta))) by (eapply loaded_after; [exact LDb|lia]).
    assert (TA : (temp (n + 2) < 256)%N) by (unfold temp in *; lia).
    assert (TC : (temp (n + 3 + 2) < 256)%N) by (unfold temp in *; lia).
    destruct LO as [LO1 LO2].
    assert (AD' : exists ra s2, compares s d RGreaterEqual from ra s2 /\
       match ra with
       | Err x => res = Err x /\ s1 = s2
       | Ok a => exists rb, compares s2 d RLessEqual to rb s1 /\ match rb with Err x => res = Err x | Ok b => res = Ok (a && b) end
       end).
    { inversion AD as [|? ? a s2 b s3 X1 X2|? ? x s2 X1|? ? a s2 x s3 X1 X2]; subst.
      - exists (Ok a), s2. split; [exact X1|]. exists (Ok b). auto.
      - exists (Err x), s1. auto.
      - exists (Ok a), s2. split; [exact X1|]. exists (Err x). auto. }
    destruct AD' as (ra & s2 & CW1 & RE).
    destruct (compare_runs _ _ _ n st7 sta c h s ra s2 Ea) as [K|K]; auto; try (rewrite F; assumption); [lia|].
    destruct ra as [a|x]; [|destruct RE as [-> ->]; right; exact K].
    destruct K as (c1 & h1 & R1 & P1 & HE1 & V1).
    assert (G1 : go c h c1 h1) by (eapply go_reach; [exact R1|rewrite temp_index; lia|exact FP]).
    pose proof (hd_fp _ _ _ _ _ _ _ _ (he_state _ _ _ HE1)) as FP1.
    destruct RE as (rb & CW2 & RE).
    destruct (compare_runs _ _ _ (n + 3)%N sta stb c1 h1 s2 rb s1 Eb) as [K|K]; auto; [lia|lia|left; eapply stuck_go; eassumption|].
    destruct rb as [b|x]; [|subst res; right; eapply gfails_go; eassumption].
    destruct K as (c2 & h2 & R2 & P2 & HE2 & V2). subst res.
    assert (G2 : go c1 h1 c2 h2) by (eapply go_reach; [exact R2|rewrite temp_index; lia|exact FP1]).
    pose proof (hd_fp _ _ _ _ _ _ _ _ (he_state _ _ _ HE2)) as FP2.
    assert (V1' : get_reg c2 (temp (n + 2)) = b2n a).
    { rewrite <- V1. eapply temp_kept; [exact R2|lia]. }
    assert (FI : fetched img (c_pc c2) (I3 BitwiseAnd (temp (n + 6)) (temp (n + 2)) (temp (n + 3 + 2)))).
    { rewrite P2. eapply loaded_at; [exact LD|lia|discriminate]. }
    pose proof (knowing_ext L L_ok L_ns L_ap l l_in) as KL.
    assert (DD : dispatch powf img c2 h2 (I3 BitwiseAnd (temp (n + 6)) (temp (n + 2)) (temp (n + 3 + 2))) =
      RNext (Vm_Model.next_pc (set_reg c2 (temp (n + 6)) (b2n (a && b)))) h2).
    { cbn [dispatch do_op3]. unfold do_binary_integer_op. rewrite V1', V2. destruct a, b; exact eq_refl. }
    destruct (gwrite powf img upcall L hidden l None KL (reg_index c2 (temp (n + 6))) (temp (n + 6)) (temp (n + 6)) c2 h2 s1 _ _
      (he_state _ _ _ HE2) FI DD (temp_dest _ None) (or_introl eq_refl)) as [R3 H3].
    right. exists (Vm_Model.next_pc (set_reg c2 (temp (n + 6)) (b2n (a && b)))), h2.
    split; [eapply go_trans; [exact G1|]; eapply go_trans; [exact G2|]; eapply go_reach; [exact R3|rewrite temp_index; lia|exact FP2]|].
    split; [change (S (c_pc c2) = next_pc (emit (I3 BitwiseAnd (temp (n + 6)) (temp (n + 2)) (temp (n + 3 + 2))) p0 (fst stb))); rewrite emit_pc, P2; reflexivity|].
    split; [eapply held_reach; [exact HE2| |exact R3|exact H3]; lia|apply get_written].
Qed.

Lemma nops_up (st st' : est) l0 : nops (up st) l0 -> egrows (next_pc (fst st)) st st' -> nops (up st') l0.
Proof.
  intros N1 [G _] a I. change (nth_error (g_code (fst st')) a = Some INop). rewrite (gr_code _ _ _ G); [apply (N1 a I)|].
  apply (code_lt (up st) a INop), N1, I.
Qed.
Lemma eext_refl (st : est) : gwf (fst st) -> eext (next_pc (fst st)) st st.
Proof. intros W0. split; [split; [apply grows_refl|reflexivity]|auto]. Qed.
Lemma nops_emit p (st : est) l0 : gwf (fst st) -> nops (up st) l0 -> nops (up (e_emit INop p st)) (l0 ++ [next_pc (fst st)]).
Proof.
  intros WG N1 a I. apply in_app_iff in I as [I|[<-|[]]].
  - eapply nops_up; [exact N1|apply egrows_emit; [exact WG|apply le_n]|exact I].
  - apply (code_emit_at INop p (up st)).
Qed.
Lemma nops_lt x l0 a : nops x l0 -> In a l0 -> a < s_pc x.
Proof. intros N1 I. eapply code_lt, N1, I. Qed.
Lemma NoDup_snoc {A} (l0 : list A) a : NoDup l0 -> ~ In a l0 -> NoDup (l0 ++ [a]).
Proof.
  induction 1 as [|b l0 NI ND IH]; intros K; cbn [app]; [constructor; [intros []|constructor]|].
  constructor; [|apply IH; intros I; apply K; right; exact I].
  intros I. apply in_app_iff in I as [I|[->|[]]]; [auto|]. apply K. left. reflexivity.
Qed.

(** The state after one guard, with the jump past it. *)
Lemma guards_step g st cond pos st1 t : compile_case_guard l test_reg test_type g st = COk (cond, pos, st1) -> gwf (fst st) ->
  let st2 := e_emit INop pos (e_emit INop pos st1) in let st3 := e_patch (next_pc (fst st1)) (IJumpIfFalse cond t) st2 in
  egrows (next_pc (fst st)) st st3 /\ gwf (fst st3) /\ later (up st1) (up st3) /\ next_pc (fst st) <= next_pc (fst st1) /\
  next_pc (fst st3) = S (S (next_pc (fst st1))) /\
  code_at (up st3) (next_pc (fst st1)) = Some (IJumpIfFalse cond t) /\ code_at (up st3) (S (next_pc (fst st1))) = Some INop.
Proof.
  intros E WG st2 st3. pose proof (case_guard_frame _ _ _ _ _ _ _ _ E WG) as G. pose proof (egrows_pc _ _ _ G) as P.
  assert (K3 : eext (next_pc (fst st)) st st3).
  { apply eext_patch; [|lia]. apply eext_emit, eext_emit. eapply eext_step; [apply eext_refl, WG|exact G]. }
  destruct K3 as (K1 & K2 & _). split; [exact K1|]. split; [exact K2|].
  assert (C1 : code_at (up st2) (next_pc (fst st1)) = Some INop).
  { change (code_at (s_emit INop pos (s_emit INop pos (up st1))) (s_pc (up st1)) = Some INop).
    rewrite code_emit_lt by (rewrite s_emit_pc; lia). apply code_emit_at. }
  split.
  { change (up st3) with (s_patch (s_pc (up st1)) (IJumpIfFalse cond t) (s_emit INop pos (s_emit INop pos (up st1)))).
    eapply later_trans; [apply (later_emit INop pos)|]. eapply later_trans; [apply (later_emit INop pos)|]. apply later_patch. exact C1. }
  split; [exact P|]. split; [unfold st3, st2; rewrite e_patch_pc, !e_emit_pc; reflexivity|]. split.
  - apply (code_patch_at (next_pc (fst st1)) (IJumpIfFalse cond t) (up st2)). rewrite up_pc. unfold st2. rewrite !e_emit_pc. lia.
  - change (up st3) with (s_patch (s_pc (up st1)) (IJumpIfFalse cond t) (s_emit INop pos (s_emit INop pos (up st1)))).
    rewrite code_patch_other by (change (s_pc (up st1)) with (next_pc (fst st1)); lia).
    change (S (next_pc (fst st1))) with (S (s_pc (up st1))). rewrite <- (s_emit_pc INop pos (up st1)). apply code_emit_at.
Qed.

Lemma guards_nops gs : forall jumps st jumps' st', case_guards l test_reg test_type gs jumps st = COk (jumps', st') -> gwf (fst st) ->
  nops (up st) (map fst jumps) -> NoDup (map fst jumps) ->
  nops (up st') (map fst jumps') /\ NoDup (map fst jumps') /\ incl (map fst jumps) (map fst jumps').
Proof.
  induction gs as [|g gs IH]; intros jumps st jumps' st' H WG NO ND; cbn [case_guards] in H.
  - apply COk_inj, pair_inj in H as [<- <-]. auto using incl_refl.
  - apply bind_ok in H as ([[cond pos] st1] & E & H). apply bind_ok in H as (t & T & H).
    destruct (guards_step _ _ _ _ _ t E WG) as (G & W3 & _ & P & P3 & _ & C2). cbv zeta in *.
    set (st3 := e_patch _ _ _) in *. assert (Q : next_pc (fst (e_emit INop pos st1)) = S (next_pc (fst st1))) by apply e_emit_pc.
    apply IH in H; [|exact W3| |].
    + destruct H as (A1 & A2 & A3). split; [exact A1|]. split; [exact A2|]. intros a I. apply A3. rewrite map_app, in_app_iff. auto.
    + rewrite map_app. intros a I. apply in_app_iff in I as [I|[<-|[]]]; [eapply nops_up; eassumption|]. cbn [fst]. rewrite Q. exact C2.
    + rewrite map_app. apply NoDup_snoc; [exact ND|]. cbn [fst]. rewrite Q. intros I. apply (nops_lt _ _ _ NO) in I. rewrite up_pc in I. lia.
Qed.

Lemma egrows_more b b' (st st' st'' : est) : egrows b st st' -> egrows b' st' st'' -> b <= b' -> egrows b st st''.
Proof. intros A [B C] LE. eapply egrows_trans; [exact A|]. split; [eapply grows_weaken; eassumption|exact C]. Qed.
Lemma guards_grow gs : forall jumps st jumps' st', case_guards l test_reg test_type gs jumps st = COk (jumps', st') -> gwf (fst st) ->
  egrows (next_pc (fst st)) st st' /\ gwf (fst st').
Proof.
  induction gs as [|g gs IH]; intros jumps st jumps' st' H WG; cbn [case_guards] in H.
  - apply COk_inj, pair_inj in H as [_ <-]. split; [apply egrows_refl|exact WG].
  - apply bind_ok in H as ([[cond pos] st1] & E & H). apply bind_ok in H as (t & T & H).
    destruct (guards_step _ _ _ _ _ t E WG) as (G & W3 & _ & P & P3 & _). cbv zeta in *.
    destruct (IH _ _ _ _ H W3) as [G' WG']. split; [|exact WG']. eapply egrows_more; [exact G|exact G'|lia].
Qed.

Lemma guards_sim gs : forall jumps st jumps' st' c h s res s', case_guards l test_reg test_type gs jumps st = COk (jumps', st') -> gwf (fst st) ->
  nops (up st) (map fst jumps) -> NoDup (map fst jumps) ->
  later (up st') X -> s_pc x0 <= next_pc (fst st) -> Forall guard_literals gs -> (ls_active_temps l <= ts_next (snd st))%N ->
  held s c h -> c_pc c = next_pc (fst st) -> admitted d s gs res s' ->
  stuck c h \/
  match res with
  | Ok true => exists c' h', go c h c' h' /\ In (c_pc c') (map fst jumps') /\ held s' c' h'
  | Ok false => exists c' h', go c h c' h' /\ c_pc c' = next_pc (fst st') /\ held s' c' h'
  | Err er => gfails c h er (world s')
  end.
Proof.
  induction gs as [|g gs IH]; intros jumps st jumps' st' c h s res s' H WG NO ND LA LE LO AC HE PC AD; cbn [case_guards] in *.
  - apply COk_inj, pair_inj in H as [<- <-]. inversion AD; subst. right. exists c, h. split; [apply go_refl, (he_state _ _ _ HE)|auto].
  - apply bind_ok in H as ([[cond pos] st1] & E & H). apply bind_ok in H as (t & T & H). apply target_eq in T.
    apply Forall_cons_iff in LO as [LO1 LO].
    destruct (guards_step _ _ _ _ _ t E WG) as (G & W3 & LA3 & P & P3 & C1 & C2). cbv zeta in *.
    set (st3 := e_patch _ _ _) in *. assert (Q : next_pc (fst (e_emit INop pos st1)) = S (next_pc (fst st1))) by apply e_emit_pc.
    rewrite e_emit_pc in T. rewrite Q in *.
    assert (NO3 : nops (up st3) (map fst (jumps ++ [(S (next_pc (fst st1)), pos)]))).
    { rewrite map_app. intros a I. apply in_app_iff in I as [I|[<-|[]]]; [eapply nops_up; eassumption|]. exact C2. }
    assert (ND3 : NoDup (map fst (jumps ++ [(S (next_pc (fst st1)), pos)]))).
    { rewrite map_app. apply NoDup_snoc; [exact ND|]. cbn [fst]. intros I. apply (nops_lt _ _ _ NO) in I. rewrite up_pc in I. lia. }
    destruct (guards_nops _ _ _ _ _ H W3 NO3 ND3) as (_ & _ & INC).
    destruct (guards_grow _ _ _ _ _ H W3) as [GR _].
    assert (LX3 : later (up st3) X) by (eapply later_trans; [apply later_up, GR|exact LA]).
    assert (LX1 : later (up st1) X) by (eapply later_trans; eassumption).
    assert (FB : fetched img (next_pc (fst st1)) (IJumpIfFalse cond t)) by (eapply up_code; [exact LX3|lia|exact C1|discriminate]).
    assert (AD' : exists r s1, admits s d g r s1 /\
       match r with Err x => res = Err x /\ s' = s1 | Ok true => res = Ok true /\ s' = s1 | Ok false => admitted d s1 gs res s' end).
    { inversion AD as [|? ? ? ? X1|? ? ? x ? X1|? ? ? s1 ? ? X1 X2]; subst; [exists (Ok true), s'|exists (Err x), s'|exists (Ok false), s1]; auto. }
    destruct AD' as (r & s1 & A & RE).
    destruct (guard_admits _ _ _ _ _ _ _ _ _ _ E WG LX1 LE LO1 HE PC AC A) as [K|K]; [left; exact K|].
    destruct r as [b|er]; [|destruct RE as [-> ->]; right; exact K]. destruct K as (c1 & h1 & G1 & P1 & HE1 & V1).
    pose proof (go_branch_bool powf img upcall c1 h1 cond t b (hd_yield _ _ _ _ _ _ _ _ (he_state _ _ _ HE1)) (hd_heap _ _ _ _ _ _ _ _ (he_state _ _ _ HE1))
      ltac:(rewrite P1; exact FB) V1) as G2.
    set (c2 := set_pc c1 (if b then S (c_pc c1) else N.to_nat t)) in *.
    assert (HE2 : held s1 c2 h1) by (apply held_pc, HE1).
    assert (G12 : go c h c2 h1) by (eapply go_trans; eassumption). destruct b.
    + destruct RE as [-> ->]. right. exists c2, h1. split; [exact G12|]. split; [|exact HE2].
      apply INC. rewrite map_app, in_app_iff. right. left. cbn [fst]. unfold c2. cbn. congruence.
    + destruct (IH _ _ _ _ c2 h1 s1 res s' H W3 NO3 ND3 LA ltac:(lia) LO) as [K|K]; auto.
      * destruct G as [_ TN]. rewrite TN. exact AC.
      * unfold c2. change (N.to_nat t = next_pc (fst st3)). rewrite P3. exact T.
      * left. eapply stuck_go; eassumption.
      * right. destruct res as [[|]|er].
        -- eapply andthen; eassumption.
        -- eapply andthen; eassumption.
        -- eapply gfails_go; eassumption.
Qed.

(** The case to run. *)
Inductive choice := NoCase | Case (k : nat) | CaseFails (e : vm_error).
Definition later_case (ch : choice) : choice := match ch with Case k => Case (S k) | other => other end.
Inductive picks {A} : env W -> list (list case_guard * A) -> choice -> env W -> Prop :=
| P_none s : picks s [] NoCase s
| P_else s body cs0 : picks s (([], body) :: cs0) (Case 0) s
| P_case s gs body cs0 s' : admitted d s gs (Ok true) s' -> picks s ((gs, body) :: cs0) (Case 0) s'
| P_other s gs body cs0 ch s1 s' : gs <> [] -> admitted d s gs (Ok false) s1 -> picks s1 cs0 ch s' -> picks s ((gs, body) :: cs0) (later_case ch) s'
| P_fails s gs body cs0 e s' : admitted d s gs (Err e) s' -> picks s ((gs, body) :: cs0) (CaseFails e) s'.

Definition addrs (pd : list (block * list (nat * linecol) * bool)) : list nat := flat_map (fun p => map fst (snd (fst p))) pd.
Definition nx (next : option (nat * linecol)) : list nat := match next with Some (a, _) => [a] | None => [] end.
Definition entered (next : option (nat * linecol)) (st : est) (pc : nat) : Prop :=
  match next with Some (a, _) => pc = a | None => pc = next_pc (fst st) end.
Record pending (st : est) (next : option (nat * linecol)) (pd : list (block * list (nat * linecol) * bool)) : Prop := mkPending {
  pe_nops : nops (up st) (addrs pd ++ nx next);
  pe_nodup : NoDup (addrs pd ++ nx next);
  pe_wf : gwf (fst st)
}.

Lemma addrs_app a b : addrs (a ++ b) = addrs a ++ addrs b.
Proof. apply flat_map_app. Qed.
Lemma addrs_one b j hn : addrs [(b, j, hn)] = map fst j.
Proof. cbn [addrs flat_map fst snd]. apply app_nil_r. Qed.
Lemma NoDup_app_intro {A} (a b : list A) : NoDup a -> NoDup b -> (forall x, In x a -> ~ In x b) -> NoDup (a ++ b).
Proof.
  induction 1 as [|x a NI ND IH]; intros NB D; cbn [app]; [exact NB|]. constructor.
  - intros I. apply in_app_iff in I as [I|I]; [auto|]. apply (D x); [left; reflexivity|exact I].
  - apply IH; [exact NB|]. intros y I. apply D. right. exact I.
Qed.
Lemma NoDup_app_l {A} (a b : list A) : NoDup (a ++ b) -> NoDup a /\ NoDup b /\ (forall x, In x a -> ~ In x b).
Proof.
  induction a as [|x a IH]; cbn [app]; intros H; [split; [constructor|split; [exact H|intros x []]]|].
  apply NoDup_cons_iff in H as [NI H]. apply IH in H as (A1 & A2 & A3). split; [constructor; [|exact A1]; intros I; apply NI, in_app_iff; auto|].
  split; [exact A2|]. intros y [<-|I]; [intros J; apply NI, in_app_iff; auto|apply A3, I].
Qed.

(** One case of the dispatch code: the state before its guards, and after them. *)
Lemma next_patched next st st1 pd : patch_next next (next_pc (fst st)) st = COk st1 -> pending st next pd ->
  pending st1 None pd /\ later (up st) (up st1) /\ next_pc (fst st1) = next_pc (fst st) /\ snd st1 = snd st /\
  (forall a p, next = Some (a, p) -> exists t, code_at (up st1) a = Some (IJump t) /\ N.to_nat t = next_pc (fst st)).
Proof.
  intros E [NO ND WG]. unfold patch_next in E. destruct next as [[a p]|].
  - apply bind_ok in E as (t & T & E). apply COk_inj in E. subst st1. apply target_eq in T. cbn [nx] in *.
    destruct (NoDup_app_l _ _ ND) as (D1 & _ & D3).
    assert (CA : code_at (up st) a = Some INop) by (apply NO, in_app_iff; right; left; reflexivity).
    split.
    { constructor; [|cbn [nx]; rewrite app_nil_r; exact D1|].
      - cbn [nx]. rewrite app_nil_r. intros b I. change (code_at (s_patch a (IJump t) (up st)) b = Some INop).
        rewrite code_patch_other; [apply NO, in_app_iff; auto|]. intros ->. apply (D3 _ I). left. reflexivity.
      - eapply grows_gwf; [apply (grows_patch 0); lia|exact WG]. }
    split; [exact (later_patch a (IJump t) (up st) CA)|]. split; [apply e_patch_pc|]. split; [reflexivity|].
    intros a0 p0 Q. injection Q as <- <-. exists t. split; [|exact T]. apply (code_patch_at a (IJump t) (up st)). eapply code_lt, CA.
  - apply COk_inj in E. subst st1. split; [constructor; assumption|]. split; [apply later_refl|]. split; [reflexivity|]. split; [reflexivity|discriminate].
Qed.

Lemma pending_else st pd body hn ep : pending st None pd ->
  pending (e_emit INop ep st) None (pd ++ [(body, [(next_pc (fst st), ep)], hn)]).
Proof.
  intros [NO ND WG]. cbn [nx] in *. rewrite app_nil_r in NO. rewrite app_nil_r in ND. constructor; cbn [nx]; rewrite ?app_nil_r, ?addrs_app, ?addrs_one; cbn [map fst].
  - apply nops_emit; assumption.
  - apply NoDup_snoc; [exact ND|]. intros I. apply (nops_lt _ _ _ NO) in I. rewrite up_pc in I. lia.
  - eapply grows_gwf; [apply (grows_emit 0); [exact WG|lia]|exact WG].
Qed.
Lemma pending_case st st1 pd body jumps hn ep gs : pending st None pd -> case_guards l test_reg test_type gs [] st = COk (jumps, st1) ->
  pending (e_emit INop ep st1) (Some (next_pc (fst st1), ep)) (pd ++ [(body, jumps, hn)]).
Proof.
  intros [NO ND WG] H. cbn [nx] in *. rewrite app_nil_r in NO. rewrite app_nil_r in ND.
  destruct (guards_nops _ _ _ _ _ H WG) as (N1 & D1 & _); [intros a []|constructor|].
  destruct (guards_grow _ _ _ _ _ H WG) as [GR W1].
  destruct (case_guards_range (next_pc (fst st)) _ _ _ _ _ _ _ _ H WG (le_n _)) as (JR & _ & _); [constructor|].
  assert (N2 : nops (up st1) (addrs (pd ++ [(body, jumps, hn)]))).
  { rewrite addrs_app, addrs_one. intros a I. apply in_app_iff in I as [I|I]; [eapply nops_up; [exact NO|exact GR|exact I]|apply N1, I]. }
  constructor; cbn [nx].
  - apply nops_emit; assumption.
  - apply NoDup_snoc; [|intros I; apply (nops_lt _ _ _ N2) in I; rewrite up_pc in I; lia].
    rewrite addrs_app, addrs_one. apply NoDup_app_intro; [exact ND|exact D1|]. intros a I J.
    apply (nops_lt _ _ _ NO) in I. rewrite up_pc in I. apply in_map_iff in J as (q & <- & J).
    unfold jumps_in in JR. rewrite Forall_forall in JR. pose proof (JR q J). lia.
  - eapply grows_gwf; [apply (grows_emit 0); [exact W1|lia]|exact W1].
Qed.

Definition case_literals {A} (p : list case_guard * A) : Prop := Forall guard_literals (fst p).

Lemma dispatch_kept ep cases : forall next pd st pd' next' st', select_dispatch l test_reg test_type ep cases next pd st = COk (pd', next', st') ->
  pending st next pd ->
  pending st' next' pd' /\ later (up st) (up st') /\ ts_next (snd st') = ts_next (snd st) /\
  (exists new, pd' = pd ++ new /\ map (fun p => fst (fst p)) new = map snd cases /\
    forall k b j hn, nth_error new k = Some (b, j, hn) -> hn = false -> S k = length new).
Proof.
  induction cases as [|[gs body] cases IH]; intros next pd st pd' next' st' H PE; cbn [select_dispatch] in H.
  - apply COk_inj in H. apply pair_inj in H as [H <-]. apply pair_inj in H as [<- <-].
    split; [exact PE|]. split; [apply later_refl|]. split; [reflexivity|]. exists []. rewrite app_nil_r. split; [reflexivity|].
    split; [reflexivity|]. intros [|k] ? ? ? Q; discriminate Q.
  - apply bind_ok in H as (st1 & E & H). destruct (next_patched _ _ _ _ E PE) as (PE1 & LA1 & P1 & S1 & _).
    set (hn := match cases with [] => false | _ => true end) in *.
    assert (NEW : forall jumps new, map (fun p : block * list (nat * linecol) * bool => fst (fst p)) new = map snd cases ->
      (forall k b j hn, nth_error new k = Some (b, j, hn) -> hn = false -> S k = length new) ->
      map (fun p => fst (fst p)) ((body, jumps, hn) :: new) = map snd ((gs, body) :: cases) /\
      forall k b j hn0, nth_error ((body, jumps, hn) :: new) k = Some (b, j, hn0) -> hn0 = false -> S k = length ((body, jumps, hn) :: new)).
    { intros jumps new M K. split; [cbn [map fst snd]; rewrite M; reflexivity|]. intros [|k] b j hn0 Q F; cbn [nth_error length] in *.
      - injection Q as <- <- <-. assert (length new = length cases) as LN by (rewrite <- (map_length (fun p => fst (fst p)) new), M, map_length; reflexivity).
        rewrite LN. unfold hn in F. destruct cases; [reflexivity|discriminate F].
      - f_equal. eapply K; eassumption. }
    destruct gs as [|g gs].
    + apply IH in H; [|apply pending_else; exact PE1]. destruct H as (A1 & A2 & A3 & new & -> & M & K).
      split; [exact A1|]. split; [eapply later_trans; [exact LA1|]; eapply later_trans; [|exact A2]; apply (later_emit INop ep (up st1))|].
      split; [rewrite A3; cbn [e_emit snd]; rewrite S1; reflexivity|].
      exists ((body, [(next_pc (fst st1), ep)], hn) :: new). rewrite <- app_assoc. split; [reflexivity|]. apply NEW; assumption.
    + apply bind_ok in H as ([jumps st2] & E2 & H). destruct (guards_grow _ _ _ _ _ E2 (pe_wf _ _ _ PE1)) as [GR W2].
      apply IH in H; [|eapply pending_case; eassumption]. destruct H as (A1 & A2 & A3 & new & -> & M & K).
      split; [exact A1|]. split.
      { eapply later_trans; [exact LA1|]. eapply later_trans; [apply later_up, GR|]. eapply later_trans; [|exact A2]. apply (later_emit INop ep (up st2)). }
      split; [rewrite A3; cbn [e_emit snd]; destruct GR as [_ TN]; rewrite TN, S1; reflexivity|].
      exists ((body, jumps, hn) :: new). rewrite <- app_assoc. split; [reflexivity|]. apply NEW; assumption.
Qed.

Lemma dispatch_sim ep s cases ch s' : picks s cases ch s' -> forall next pd st pd' next' st' c h, select_dispatch l test_reg test_type ep cases next pd st = COk (pd', next', st') ->
  pending st next pd -> later (up st') X -> s_pc x0 <= next_pc (fst st) -> (forall a, In a (nx next) -> s_pc x0 <= a) ->
  Forall case_literals cases -> (ls_active_temps l <= ts_next (snd st))%N ->
  held s c h -> entered next st (c_pc c) ->
  stuck c h \/
  match ch with
  | NoCase => exists c' h', go c h c' h' /\ entered next' st' (c_pc c') /\ held s' c' h'
  | Case k => exists c' h' b j hn, go c h c' h' /\ nth_error pd' (length pd + k) = Some (b, j, hn) /\ In (c_pc c') (map fst j) /\ held s' c' h'
  | CaseFails e => gfails c h e (world s')
  end.
Proof.
  assert (ARRIVE : forall next st st1 pd c h s, patch_next next (next_pc (fst st)) st = COk st1 -> pending st next pd -> later (up st1) X ->
    (forall a, In a (nx next) -> s_pc x0 <= a) -> held s c h -> entered next st (c_pc c) ->
    exists c', go c h c' h /\ c_pc c' = next_pc (fst st1) /\ held s c' h).
  { intros next st st1 pd c h s0 E PE LA LE HE EN. destruct (next_patched _ _ _ _ E PE) as (_ & _ & P1 & _ & J).
    destruct next as [[a p]|]; cbn [entered] in EN.
    - destruct (J a p eq_refl) as (t & C & T). exists (set_pc c (N.to_nat t)). split.
      + eapply go_jump; [apply (he_state _ _ _ HE)|apply (he_state _ _ _ HE)|]. rewrite EN. eapply up_code; [exact LA| |exact C|discriminate]. apply LE. left. reflexivity.
      + split; [rewrite P1; exact T|]. apply held_pc, HE.
    - exists c. split; [apply go_refl, (he_state _ _ _ HE)|]. split; [rewrite P1; exact EN|exact HE]. }
  intros PK0. induction PK0 as [s|s body cases|s gs body cases s' AD|s gs body cases ch s1 s' NG AD PK IH|s gs body cases e s' AD];
    intros next pd st pd' next' st' c h H PE LA LE LN LO AC HE EN; cbn [select_dispatch] in H.
  - apply COk_inj in H. apply pair_inj in H as [H <-]. apply pair_inj in H as [<- <-].
    right. exists c, h. split; [apply go_refl, (he_state _ _ _ HE)|]. auto.
  - apply bind_ok in H as (st1 & E & H). destruct (next_patched _ _ _ _ E PE) as (PE1 & LA1 & P1 & S1 & _).
    set (hn := match cases with [] => false | _ => true end) in *.
    destruct (dispatch_kept _ _ _ _ _ _ _ _ H (pending_else _ _ body hn ep PE1)) as (_ & A2 & _ & new & Q & _).
    destruct (ARRIVE _ _ _ _ c h s E PE) as (c1 & G1 & PC1 & HE1); auto.
    { eapply later_trans; [|exact LA]. eapply later_trans; [|exact A2]. apply (later_emit INop ep (up st1)). }
    right. exists c1, h, body, [(next_pc (fst st1), ep)], hn. split; [exact G1|]. split; [|split; [left; symmetry; exact PC1|exact HE1]].
    rewrite Q, <- app_assoc, Nat.add_0_r, nth_error_app2, Nat.sub_diag by lia. reflexivity.
  - apply bind_ok in H as (st1 & E & H). destruct (next_patched _ _ _ _ E PE) as (PE1 & LA1 & P1 & S1 & _).
    set (hn := match cases with [] => false | _ => true end) in *. destruct gs as [|g gs]; [inversion AD|].
    apply bind_ok in H as ([jumps st2] & E2 & H). destruct (guards_grow _ _ _ _ _ E2 (pe_wf _ _ _ PE1)) as [GR W2].
    destruct (dispatch_kept _ _ _ _ _ _ _ _ H (pending_case _ _ _ body _ hn ep _ PE1 E2)) as (_ & A2 & _ & new & Q & _).
    assert (LX2 : later (up st2) X) by (eapply later_trans; [|exact LA]; eapply later_trans; [|exact A2]; apply (later_emit INop ep (up st2))).
    destruct (ARRIVE _ _ _ _ c h s E PE) as (c1 & G1 & PC1 & HE1); auto.
    { eapply later_trans; [apply later_up, GR|exact LX2]. }
    apply Forall_cons_iff in LO as [LO1 _].
    destruct (guards_sim _ _ _ _ _ c1 h s _ _ E2 (pe_wf _ _ _ PE1) ltac:(intros ? []) ltac:(constructor) LX2 ltac:(lia) LO1 ltac:(rewrite S1; exact AC) HE1 PC1 AD) as [K|K].
    + left. eapply stuck_go; eassumption.
    + right. destruct K as (c2 & h2 & G2 & I2 & HE2). exists c2, h2, body, jumps, hn. split; [eapply go_trans; eassumption|].
      split; [|split; assumption]. rewrite Q, <- app_assoc, Nat.add_0_r, nth_error_app2, Nat.sub_diag by lia. reflexivity.
  - apply bind_ok in H as (st1 & E & H). destruct (next_patched _ _ _ _ E PE) as (PE1 & LA1 & P1 & S1 & _).
    set (hn := match cases with [] => false | _ => true end) in *. destruct gs as [|g gs]; [congruence|].
    apply bind_ok in H as ([jumps st2] & E2 & H). destruct (guards_grow _ _ _ _ _ E2 (pe_wf _ _ _ PE1)) as [GR W2].
    assert (PE2 := pending_case _ _ _ body _ hn ep _ PE1 E2).
    destruct (dispatch_kept _ _ _ _ _ _ _ _ H PE2) as (_ & A2 & _ & _).
    assert (LX2 : later (up st2) X) by (eapply later_trans; [|exact LA]; eapply later_trans; [|exact A2]; apply (later_emit INop ep (up st2))).
    destruct (ARRIVE _ _ _ _ c h s E PE) as (c1 & G1 & PC1 & HE1); auto.
    { eapply later_trans; [apply later_up, GR|exact LX2]. }
    apply Forall_cons_iff in LO as [LO1 LO]. pose proof (egrows_pc _ _ _ GR) as PG.
    destruct (guards_sim _ _ _ _ _ c1 h s _ _ E2 (pe_wf _ _ _ PE1) ltac:(intros ? []) ltac:(constructor) LX2 ltac:(lia) LO1 ltac:(rewrite S1; exact AC) HE1 PC1 AD) as [K|K].
    { left. eapply stuck_go; eassumption. }
    destruct K as (c2 & h2 & G2 & I2 & HE2). assert (G12 : go c h c2 h2) by (eapply go_trans; eassumption).
    destruct (IH _ _ _ _ _ _ c2 h2 H PE2 LA) as [K|K]; auto.
    + rewrite e_emit_pc. lia.
    + intros a [<-|[]]. lia.
    + cbn [e_emit snd]. destruct GR as [_ TN]. rewrite TN, S1. exact AC.
    + left. eapply stuck_go; eassumption.
    + right. destruct ch as [|k|e]; cbn [later_case].
      * eapply andthen; eassumption.
      * destruct K as (c3 & h3 & b & j & hn' & G3 & Q & I3 & HE3). exists c3, h3, b, j, hn'. split; [eapply go_trans; eassumption|].
        split; [|auto]. rewrite app_length in Q. cbn [length] in Q. rewrite <- Q. f_equal. lia.
      * eapply gfails_go; eassumption.
  - apply bind_ok in H as (st1 & E & H). destruct (next_patched _ _ _ _ E PE) as (PE1 & LA1 & P1 & S1 & _).
    set (hn := match cases with [] => false | _ => true end) in *. destruct gs as [|g gs]; [inversion AD|].
    apply bind_ok in H as ([jumps st2] & E2 & H). destruct (guards_grow _ _ _ _ _ E2 (pe_wf _ _ _ PE1)) as [GR W2].
    destruct (dispatch_kept _ _ _ _ _ _ _ _ H (pending_case _ _ _ body _ hn ep _ PE1 E2)) as (_ & A2 & _ & _).
    assert (LX2 : later (up st2) X) by (eapply later_trans; [|exact LA]; eapply later_trans; [|exact A2]; apply (later_emit INop ep (up st2))).
    destruct (ARRIVE _ _ _ _ c h s E PE) as (c1 & G1 & PC1 & HE1); auto.
    { eapply later_trans; [apply later_up, GR|exact LX2]. }
    apply Forall_cons_iff in LO as [LO1 _].
    destruct (guards_sim _ _ _ _ _ c1 h s _ _ E2 (pe_wf _ _ _ PE1) ltac:(intros ? []) ltac:(constructor) LX2 ltac:(lia) LO1 ltac:(rewrite S1; exact AC) HE1 PC1 AD) as [K|K].
    + left. eapply stuck_go; eassumption.
    + right. eapply gfails_go; eassumption.
Qed.
End Select.

Section Bodies.
Variable powf : N -> N -> N.
Variable img : image.
Context {W : Type}.
Variable upcall : N -> N -> nat -> image -> ctx -> heap -> W -> option (upcall_result W).
Variable L : lsyms.
Variable hidden : N -> option hdatum.
Variable calls : ustr -> list given -> env W -> res vm_error (option cdatum) -> env W -> Prop.
Variable ups : list ustr.
Variable entry : point -> N -> Prop.
Hypothesis L_ok : tables_ok L.
Hypothesis L_ns : no_shadowing L.
Hypothesis L_ap : names_apart L.
Hypothesis functions_ok : functions_obey powf img upcall L hidden calls ups entry.
Hypothesis calls_local : forall k gs s r s' k', calls k gs s r s' -> is_shared L k' = false -> (r = Ok None -> forall t, ~ In (GRef k' t) gs) -> vals s k' = None -> vals s' k' = None.
Notation cs := (i_constants img).
Notation callable := (get_callable (ls_global L)).
Notation state ls := (holding L hidden cs ls None).
Notation has := (has img L ups entry).
Notation go := (go powf img upcall).
Notation stuck := (stuck powf img upcall).
Notation gfails := (gfails powf img upcall).
Notation greach := (greach powf img upcall).
Notation loaded := (loaded img ups entry).
Notation evals := (evals powf callable (is_variable L) calls).
Notation compares := (compares powf callable (is_variable L) calls).
Notation admits := (admits powf callable (is_variable L) calls).
Notation admitted := (admitted powf callable (is_variable L) calls).
Notation sim := (sim powf img upcall L hidden).
Notation simulates := (simulates powf img upcall L hidden ups entry).
Notation picks := (picks powf L calls).
Implicit Types (h : mem W) (s : env W).

Record body_at (x x' : sst) (ends' : list nat) (last : bool) (b : block) (j : list (nat * linecol)) (hn : bool) (xb zb : sst) : Prop := mkBodyAt {
  ba_code : b xb = COk zb;
  ba_ok : ok xb;
  ba_later : later zb x';
  ba_ext : ext (snd x) (snd xb);
  ba_pc : s_pc x <= s_pc xb;
  ba_grows : sgrows 0 zb x';
  ba_jumps : forall a, In a (map fst j) -> exists t, code_at x' a = Some (IJump t) /\ N.to_nat t = s_pc xb;
  ba_next : hn = true -> In (s_pc zb) ends';
  ba_last : hn = false -> last = true -> s_pc zb = s_pc x' /\ snd zb = snd x'
}.

Lemma patched_later l target x y : patch_jumps l target x = COk y -> ok x -> nops x (map fst l) ->
  later x y /\ (forall a, ~ In a (map fst l) -> code_at y a = code_at x a) /\ s_pc y = s_pc x /\ snd y = snd x /\
  t_do (fst y) = t_do (fst x) /\ t_for (fst y) = t_for (fst x) /\ sgrows 0 x y /\
  forall a, In a (map fst l) -> exists t, code_at y a = Some (IJump t) /\ N.to_nat t = target.
Proof.
  intros H O NO. destruct (jumps_spec _ _ _ _ H) as (J1 & J2 & J3 & J4 & gg & J5); [intros a I; eapply code_lt, NO, I|].
  split; [|split; [exact J2|split; [exact J3|split; [exact J4|split; [rewrite J5; reflexivity|split; [rewrite J5; reflexivity|split; [|exact J1]]]]]]].
  - eapply later_jumps; [exact H| |exact J4|exact J3].
    intros p i C NI. destruct (in_dec Nat.eq_dec p (map fst l)) as [I|I]; [rewrite (NO p I) in C; congruence|]. rewrite J2 by exact I. exact C.
  - eapply jumps_ext; [|exact H|]; [apply Forall_forall; intros; apply Nat.le_0_l|]. split; [apply sgrows_refl|]. split; [apply O|lia].
Qed.

Lemma bodies_parts ep de pd : Forall (fun p => bframe (fst (fst p)) /\ iframe (fst (fst p))) pd -> forall ends x ends' x',
  select_bodies ep pd ends x = COk (ends', x') -> ok x -> nops x (addrs pd ++ de :: ends) -> NoDup (addrs pd ++ de :: ends) ->
  (forall a, In a (addrs pd ++ de :: ends) -> notin a x) ->
  later x x' /\ sgrows 0 x x' /\ ok x' /\ nops x' (de :: ends') /\ NoDup (de :: ends') /\ (forall a, In a (de :: ends') -> notin a x') /\ incl ends ends' /\
  (forall a, In a ends' -> In a ends \/ s_pc x <= a) /\
  forall k b j hn, nth_error pd k = Some (b, j, hn) -> exists xb zb, body_at x x' ends' (S k =? length pd) b j hn xb zb.
Proof.
  induction 1 as [|[[body jumps] hn] pd [B F] BS IH]; intros ends x ends' x' H O NO ND NI; cbn [select_bodies] in H.
  - apply COk_inj, pair_inj in H as [<- <-]. split; [apply later_refl|]. split; [apply sgrows_refl|]. split; [exact O|]. split; [exact NO|].
    split; [exact ND|]. split; [exact NI|]. split; [apply incl_refl|]. split; [auto|]. intros [|k] ? ? ? Q; discriminate Q.
  - cbn [fst] in B, F. apply bind_ok in H as (y & E & H). apply bind_ok in H as (z & E0 & H).
    assert (AD : addrs ((body, jumps, hn) :: pd) = map fst jumps ++ addrs pd) by reflexivity. rewrite AD, <- app_assoc in *.
    assert (NJ : nops x (map fst jumps)) by (intros a I; apply NO, in_app_iff; auto).
    destruct (NoDup_app_l _ _ ND) as (D1 & D2 & D3).
    destruct (patched_later _ _ _ _ E O NJ) as (LY & KY & PY & SY & DY & FY & GY & JY).
    destruct (ok_patches _ _ _ _ E O) as (OY & PE & _); [intros a I; apply NI, in_app_iff; auto|].
    destruct (ok_body _ _ _ B F E0 OY) as (OZ & GZ & PZ).
    assert (NZ : nops z (addrs pd ++ de :: ends)).
    { intros a I. assert (CX : code_at x a = Some INop) by (apply NO, in_app_iff; auto).
      rewrite (code_grows _ _ _ _ GZ) by (rewrite PY; eapply code_lt, CX). rewrite KY; [exact CX|]. intros J. apply (D3 _ J I). }
    assert (IZ : forall a, In a (addrs pd ++ de :: ends) -> notin a z).
    { intros a I. eapply notin_step; [exact GZ|rewrite PY; apply (code_lt x a INop), NO, in_app_iff; auto|].
      unfold notin. rewrite PE. apply NI, in_app_iff. auto. }
    assert (JZ : forall a, In a (map fst jumps) -> exists t, code_at z a = Some (IJump t) /\ N.to_nat t = s_pc y).
    { intros a I. destruct (JY a I) as (t & C & T). exists t. split; [|rewrite PY; exact T].
      rewrite (code_grows _ _ _ _ GZ); [exact C|]. eapply code_lt, C. }
    assert (LYZ : later y z) by (apply later_grows, GZ).
    assert (FIN : forall ends1 z1, select_bodies ep pd ends1 z1 = COk (ends', x') -> later z z1 -> sgrows 0 z z1 -> ok z1 ->
      nops z1 (addrs pd ++ de :: ends1) -> NoDup (addrs pd ++ de :: ends1) -> (forall a, In a (addrs pd ++ de :: ends1) -> notin a z1) ->
      incl ends ends1 -> (forall a, In a ends1 -> In a ends \/ s_pc x <= a) -> (hn = true -> In (s_pc z) ends1) ->
      (hn = false -> z1 = z) ->
      later x x' /\ sgrows 0 x x' /\ ok x' /\ nops x' (de :: ends') /\ NoDup (de :: ends') /\ (forall a, In a (de :: ends') -> notin a x') /\ incl ends ends' /\
      (forall a, In a ends' -> In a ends \/ s_pc x <= a) /\
      forall k b j hn0, nth_error ((body, jumps, hn) :: pd) k = Some (b, j, hn0) -> exists xb zb, body_at x x' ends' (S k =? length ((body, jumps, hn) :: pd)) b j hn0 xb zb).
    { clear H. intros ends1 z1 H L1 G1 O1 N1 D4 I1 IN1 R1 HN LAST.
      destruct (IH _ _ _ _ H O1 N1 D4 I1) as (A1 & A2 & A3 & A4 & A5 & A6 & A7 & A8 & A9).
      assert (LXZ : later x z) by (eapply later_trans; eassumption).
      assert (LZ' : later z x') by (eapply later_trans; eassumption).
      assert (GX : sgrows 0 x z) by (eapply sgrows_trans; [exact GY|eapply sgrows_weaken; [exact GZ|lia]]).
      assert (GZ' : sgrows 0 z x') by (eapply sgrows_trans; eassumption).
      split; [eapply later_trans; eassumption|]. split; [eapply sgrows_trans; eassumption|]. split; [exact A3|]. split; [exact A4|]. split; [exact A5|]. split; [exact A6|].
      split; [intros a I; apply A7, IN1, I|]. split.
      { intros a I. destruct (A8 a I) as [J|J]; [apply R1, J|]. right. pose proof (la_pc _ _ L1). pose proof (la_pc _ _ LXZ). lia. }
      intros [|k] b j hn0 Q; cbn [nth_error] in Q.
      - injection Q as <- <- <-. exists y, z. constructor; [exact E0|exact OY|exact LZ'|apply (la_syms _ _ LY)|lia|exact GZ'| | |].
        + intros a I. destruct (JZ a I) as (t & C & T). exists t. split; [|exact T]. apply (la_code _ _ LZ'); [exact C|discriminate].
        + intros HT. apply A7, HN, HT.
        + intros HF Q. cbn [length] in Q. apply Nat.eqb_eq in Q. destruct pd; [|discriminate Q]. cbn [select_bodies] in H.
          apply COk_inj, pair_inj in H as [_ H]. rewrite <- H, (LAST HF). auto.
      - destruct (A9 k b j hn0 Q) as (xb & zb & [B1 B2 B3 B4 B5 B6 B7 B8 B9]). exists xb, zb. constructor; [exact B1|exact B2|exact B3| | |exact B6|exact B7|exact B8|exact B9].
        + eapply ext_trans; [apply (la_syms _ _ LXZ)|]. eapply ext_trans; [apply (la_syms _ _ L1)|exact B4].
        + pose proof (la_pc _ _ L1). pose proof (la_pc _ _ LXZ). lia. }
    destruct hn.
    + destruct (ok_emit INop ep z OZ) as [O3 G3]. eapply FIN; [exact H|apply later_emit|eapply sgrows_weaken; [exact G3|lia]|exact O3| | | | | | |discriminate].
      * rewrite app_comm_cons, app_assoc. intros a I. apply in_app_iff in I as [I|[<-|[]]]; [|apply code_emit_at].
        rewrite code_emit_lt; [apply NZ, I|]. eapply code_lt, NZ, I.
      * rewrite app_comm_cons, app_assoc. apply NoDup_snoc; [exact D2|]. intros I. apply (nops_lt _ _ _ NZ) in I. lia.
      * rewrite app_comm_cons, app_assoc. intros a I. apply in_app_iff in I as [I|[<-|[]]]; [apply notin_emit, IZ, I|].
        apply notin_emit, notin_now, OZ.
      * intros a I. apply in_app_iff. auto.
      * intros a I. apply in_app_iff in I as [I|[<-|[]]]; [auto|right; lia].
      * intros _. apply in_app_iff. right. left. reflexivity.
    + eapply FIN; [exact H|apply later_refl|apply sgrows_refl|exact OZ|exact NZ|exact D2|exact IZ|apply incl_refl|auto|discriminate|reflexivity].
Qed.

Lemma fold_patched (t : N) l : forall x, nops x l -> NoDup l ->
  let y := fold_left (fun x a => s_patch a (IJump t) x) l x in
  later x y /\ s_pc y = s_pc x /\ snd y = snd x /\ t_do (fst y) = t_do (fst x) /\ t_for (fst y) = t_for (fst x) /\ t_exits (fst y) = t_exits (fst x) /\
  forall a, In a l -> code_at y a = Some (IJump t).
Proof.
  induction l as [|a l IH]; intros x NO ND; cbn [fold_left]; cbv zeta.
  - split; [apply later_refl|]. split; [reflexivity|]. split; [reflexivity|]. split; [reflexivity|]. split; [reflexivity|]. split; [reflexivity|]. intros a [].
  - apply NoDup_cons_iff in ND as [NI ND]. assert (CA : code_at x a = Some INop) by (apply NO; left; reflexivity).
    destruct (IH (s_patch a (IJump t) x)) as (A1 & A2 & A3 & A4 & A5 & A7 & A6); [|exact ND|].
    { intros b I. rewrite code_patch_other; [apply NO; right; exact I|]. intros ->. contradiction. }
    split; [eapply later_trans; [apply later_patch; exact CA|exact A1]|]. split; [rewrite A2; apply s_patch_pc|]. split; [exact A3|].
    split; [exact A4|]. split; [exact A5|]. split; [exact A7|].
    intros b [<-|I]; [|apply A6, I]. apply (la_code _ _ A1); [|discriminate]. apply code_patch_at. eapply code_lt, CA.
Qed.

Lemma reserve_reg l r l' : reserve_temp l = Ok (r, l') -> r = (64 + N.of_nat (id_len (ls_locals l)) + ls_active_temps l)%N.
Proof.
  unfold reserve_temp, temp_register, register_local, max_global, max_register, u8_ids. intros H.
  destruct (_ <? 256)%N; [|discriminate H]. destruct (_ <? 256)%N; [|discriminate H]. destruct (_ <? 256)%N; [|discriminate H].
  destruct (_ <=? _)%N eqn:Q in H; [|discriminate H]. apply Ok_pair in H as [<- _]. lia.
Qed.

Lemma reserve_small l r l' : reserve_temp l = Ok (r, l') -> (r < 256)%N.
Proof.
  unfold reserve_temp, temp_register, register_local, max_global, max_register, u8_ids. intros H.
  destruct (_ <? 256)%N; [|discriminate H]. destruct (_ <? 256)%N; [|discriminate H]. destruct (_ <? 256)%N; [|discriminate H].
  destruct (_ <=? _)%N eqn:Q in H; [|discriminate H]. apply Ok_pair in H as [<- _]. apply N.leb_le in Q. clear -Q. lia.
Qed.

Lemma select_parts e cases ep x x' : Forall (fun p => bframe (snd p) /\ iframe (snd p)) cases ->
  compile_select e cases ep x = COk x' -> ok x -> has x x' -> in32 e -> Forall case_literals cases ->
  (forall gs b, In (gs, b) cases -> exists xb zb, b xb = COk zb /\ ok xb /\ has xb zb /\ ext (snd zb) (snd x')) /\
  forall c h s, state (snd x) c h s -> c_pc c = s_pc x ->
  (forall er s1, evals s e (Err er) s1 -> stuck c h \/ gfails c h er (world s1)) /\
  (forall d s1 ch s2, evals s e (Ok d) s1 -> picks d s1 cases ch s2 ->
   stuck c h \/
   match ch with
   | NoCase => exists c' h', go c h c' h' /\ c_pc c' = s_pc x' /\ state (snd x') c' h' s2
   | CaseFails er => gfails c h er (world s2)
   | Case k => exists gs b xb zb c' h', nth_error cases k = Some (gs, b) /\ b xb = COk zb /\ ok xb /\ has xb zb /\
       go c h c' h' /\ c_pc c' = s_pc xb /\ state (snd xb) c' h' s2 /\
       (forall c h s, state (snd zb) c h s -> c_pc c = s_pc zb -> exists c' h', go c h c' h' /\ c_pc c' = s_pc x' /\ state (snd x') c' h' s) /\
       ext (snd zb) (snd x') /\ top_kept (t_do (fst zb)) (t_do (fst x')) /\ top_kept (t_for (fst zb)) (t_for (fst x')) /\ exits_kept zb x'
   end).
Proof.
  intros BF H O HS LO LC. unfold compile_select in H.
  destruct (reserve_temp (snd x)) as [[tr l]|er] eqn:RT; [|discriminate H]. cbn [of_syms bind] in H.
  destruct (reserve_ok _ _ _ RT) as (R1 & R2 & R3). pose proof (reserve_reg _ _ _ RT) as R4.
  apply bind_ok in H as ([st1 tt_] & E & H). apply bind_ok in H as ([[pd next] st2] & E0 & H).
  set (x1 := (set_gen (fst st2) (fst x), release_temp (thaw l (snd st2)))) in *.
  set (x2 := s_emit INop ep x1) in *. apply bind_ok in H as (x3 & E1 & H).
  apply bind_ok in H as ([ends x4] & E2 & H). apply bind_ok in H as (t & T & H). apply COk_inj in H. apply target_eq in T.
  set (de := s_pc x1) in *.
  set (st0 := (s_gen x, frozen l)) in *.
  assert (W0 : gwf (fst st0)) by apply O.
  destruct (compile_expr_frame l e _ _ _ _ E W0) as [G1 P1]. change (fst st0) with (s_gen x) in *. change (next_pc (s_gen x)) with (s_pc x) in *.
  assert (W1 := egrows_gwf _ _ _ G1 W0).
  assert (PE1 : pending l x st1 None []) by (constructor; [intros a []|constructor|exact W1]).
  assert (tis : (tr + 1 = 64 + N.of_nat (id_len (ls_locals l)) + ls_active_temps l)%N) by (rewrite R2, R3, R4; lia).
  assert (apos : (0 < ls_active_temps l)%N) by lia.
  destruct (dispatch_kept l tr tt_ tis apos x ep cases _ _ _ _ _ _ E0 PE1) as (PE2 & LA2 & TN2 & new & Q & MB & HN). cbn [app] in Q. subst new.
  destruct PE2 as [NO2 ND2 W2].
  assert (K1 : grows (s_pc x) (s_gen x) (fst st2)).
  { pose proof (dispatch_frame (s_pc x) st0 l tr tt_ ep cases) as DF.
    destruct (DF ltac:(eapply Forall_impl; [|exact BF]; intros p K; apply K) _ _ _ _ _ _ E0) as ((GG & _) & _ & _); [|exact I|constructor|apply GG].
    split; [exact G1|]. split; [exact W1|]. apply Nat.lt_le_incl. exact P1. }
  assert (GX1 : sgrows (s_pc x) x x1).
  { apply sgrows_gen; [exact K1|]. constructor; cbn [release_temp thaw ls_locals ls_global ls_active_temps];
      rewrite ?R1, ?R2; auto using tgrows_refl. rewrite R3. lia. }
  assert (U : under (s_gen x)).
  { intros a9 J. apply (inv_lt x _ (ok_inv _ O)). apply in_app_iff. left. exact J. }
  assert (F0 : Steady_Proofs.filled (s_gen x) (fst st1)).
  { refine (wp_ok _ (fun q => Steady_Proofs.filled (s_gen x) (fst (fst q))) _ E _).
    apply (Steady_Proofs.compile_expr_st _ (Steady_Proofs.filled_steady (s_gen x))); [apply Steady_Proofs.filled_refl|]. intros st' t' K9. exact K9. }
  destruct (dispatch_avoid (s_gen x) _ _ _ _ _ U _ _ _ _ _ _ E0 F0) as [FD AV]; [intros a9 []|].
  assert (O1 : ok x1).
  { split; [eapply sgrows_swf; [exact GX1|apply O]|]. eapply inv_gen; [apply O|exact GX1|]. do 3 (split; [reflexivity|]). exact FD. }
  assert (PX1 : s_pc x <= de) by (eapply sgrows_pc, GX1).
  assert (EL : ext l (snd x1)) by (split; [exists []; rewrite app_nil_r; reflexivity|split; [exists []; rewrite app_nil_r; reflexivity|split; [reflexivity|auto]]]).
  assert (EX : ext (snd x) l) by (split; [exists []; rewrite app_nil_r; exact R2|rewrite R1; split; [exists []; rewrite app_nil_r; reflexivity|split; [reflexivity|auto]]]).
  assert (LU : later (up l x st2) x1) by (apply later_same; [auto|exact EL|reflexivity|reflexivity|auto|reflexivity|apply le_n|apply args_kept_eq; reflexivity]).
  destruct (ok_emit INop ep x1 O1) as [O2 G2]. fold x2 in O2, G2.
  assert (LX2 : later x1 x2) by apply later_emit.
  assert (RNG : forall a, In a (addrs pd ++ nx next) -> s_pc x <= a).
  { destruct (dispatch_range (s_pc x) _ _ _ _ _ _ _ _ _ _ _ E0 W1) as [NI PI]; [lia|exact I|constructor|].
    intros a I. apply in_app_iff in I as [I|I].
    - unfold addrs in I. apply in_flat_map in I as (q & I & J). rewrite Forall_forall in PI. specialize (PI q I).
      apply in_map_iff in J as (w & <- & J). unfold pend_in, jumps_in in PI. rewrite Forall_forall in PI. apply (PI w J).
    - destruct next as [[a0 p0]|]; [|destruct I]. destruct I as [<-|[]]. cbn [next_in] in NI. lia. }
  assert (NX2 : nops x2 (addrs pd ++ nx next)).
  { intros a I. assert (CA : code_at x1 a = Some INop) by exact (NO2 a I). unfold x2. rewrite code_emit_lt; [exact CA|eapply code_lt, CA]. }
  assert (NDE : ~ In de (addrs pd ++ nx next)).
  { intros I. assert (CA : code_at x1 de = Some INop) by exact (NO2 de I). apply code_lt in CA. unfold de in CA. lia. }
  assert (NOT2 : forall a, In a (addrs pd ++ nx next) -> notin a x2).
  { intros a J. apply notin_emit. intros H9. unfold pend in H9. rewrite in_app_iff in H9. destruct H9 as [H9|H9].
    - apply in_app_iff in J. assert (J' : In a (next_of next ++ jumps_of pd)) by (apply in_app_iff; tauto). apply (proj2 (AV a J')). exact H9.
    - assert (LT9 : a < s_pc x) by (apply (inv_lt _ _ (ok_inv _ O)); unfold pend; rewrite in_app_iff; right; exact H9).
      specialize (RNG a J). lia. }
  destruct (NoDup_app_l _ _ ND2) as (D1 & D2 & D3).
  (* the jump past the last case *)
  assert (X3 : later x2 x3 /\ ok x3 /\ s_pc x3 = s_pc x2 /\ snd x3 = snd x2 /\ sgrows 0 x2 x3 /\ pend x3 = pend x2 /\
    nops x3 (addrs pd ++ [de]) /\ (forall a p, next = Some (a, p) -> exists t, code_at x3 a = Some (IJump t) /\ N.to_nat t = de)).
  { assert (CD : code_at x2 de = Some INop) by apply code_emit_at. destruct next as [[a p]|].
    - apply bind_ok in E1 as (t1 & T1 & E1). apply COk_inj in E1. subst x3. apply target_eq in T1.
      assert (CA : code_at x2 a = Some INop) by (apply NX2, in_app_iff; right; left; reflexivity).
      split; [apply later_patch; exact CA|]. split; [apply ok_patch; [exact O2|apply NOT2, in_app_iff; right; left; reflexivity]|].
      split; [apply s_patch_pc|]. split; [reflexivity|]. split; [apply sgrows_patch, Nat.le_0_l|]. split; [reflexivity|]. split.
      + intros b I. rewrite code_patch_other.
        * apply in_app_iff in I as [I|[<-|[]]]; [apply NX2, in_app_iff; auto|exact CD].
        * intros ->. apply in_app_iff in I as [I|[<-|[]]]; [apply (D3 _ I); left; reflexivity|]. apply NDE, in_app_iff. right. left. reflexivity.
      + intros a0 p0 Q. injection Q as <- <-. exists t1. split; [|exact T1]. apply code_patch_at. eapply code_lt, CA.
    - apply COk_inj in E1. subst x3. split; [apply later_refl|]. split; [exact O2|]. split; [reflexivity|]. split; [reflexivity|].
      split; [apply sgrows_refl|]. split; [reflexivity|]. split; [|discriminate].
      intros b I. apply in_app_iff in I as [I|[<-|[]]]; [apply NX2, in_app_iff; auto|exact CD]. }
  destruct X3 as (LX3 & O3 & P3 & S3 & G3 & PE3 & NX3 & J3).
  destruct (bodies_parts ep de pd) with (ends := @nil nat) (x := x3) (ends' := ends) (x' := x4) as (LX4 & G4 & O4 & N4 & D4 & I4 & _ & R4' & BA).
  { apply (dispatch_bodies (fun b => bframe b /\ iframe b) _ _ _ _ _ BF _ _ _ _ _ _ E0). constructor. }
  { exact E2. }
  { exact O3. }
  { exact NX3. }
  { apply NoDup_snoc; [exact D1|]. intros I. apply NDE, in_app_iff. auto. }
  { intros a I. unfold notin. rewrite PE3. apply in_app_iff in I as [I|[<-|[]]]; [apply NOT2, in_app_iff; auto|]. apply notin_emit, notin_now, O1. }
  destruct (fold_patched t (de :: ends) x4 N4 D4) as (LX5 & P5 & S5 & DO5 & FO5 & EX5 & J5). cbn [fold_left] in *. rewrite H in *.
  assert (T' : N.to_nat t = s_pc x') by congruence.
  assert (A41 : later x3 x') by (eapply later_trans; eassumption).
  assert (A31 : later x2 x') by (eapply later_trans; eassumption).
  assert (A21 : later x1 x') by (eapply later_trans; eassumption).
  assert (AU2 : later (up l x st2) x') by (eapply later_trans; eassumption).
  assert (AU1 : later (up l x st1) x') by (eapply later_trans; eassumption).
  assert (EL1 : ext (snd x1) L) by (eapply ext_trans; [apply (la_syms _ _ A21)|apply HS]).
  assert (lin : ext l L) by (eapply ext_trans; [exact EL|exact EL1]).
  split.
  { intros gs b J. apply In_nth_error in J as [k J].
    assert (M : nth_error (map snd cases) k = Some b) by (erewrite map_nth_error; [|exact J]; reflexivity).
    rewrite <- MB, nth_error_map in M. destruct (nth_error pd k) as [[[b' j] hn]|] eqn:NTH; [|discriminate M]. injection M as ->.
    destruct (BA k b j hn NTH) as (xb & zb & [B1 B2 B3 B4 B5 B6 B7 B8 B9]). exists xb, zb.
    assert (LB : later zb x') by (eapply later_trans; eassumption).
    split; [exact B1|]. split; [exact B2|]. split; [|apply (la_syms _ _ LB)].
    eapply has_inner; [exact HS|exact LB|]. rewrite P3 in B5. unfold x2 in B5. rewrite s_emit_pc in B5. lia. }
  intros c h s ST PC.
  assert (STl : state l c h s) by (eapply state_ext; [exact L_ns|exact EX|exact lin|exact ST]).
  pose proof (up_in img L ups entry l x x' HS st0 st1 AU1 (le_n _)) as LD1.
  pose proof (knowing_ext L L_ok L_ns L_ap l lin) as KN.
  pose proof (hd_fp _ _ _ _ _ _ _ _ ST) as FP.
  assert (RI : S (reg_index c tr) = top_slot l c (snd st0)).
  { rewrite R4, <- N.add_assoc, local_index. unfold top_slot, st0. cbn [snd frozen ts_next]. rewrite R2, R3. lia. }
  (* the tested value *)
  assert (SET : forall r s1, evals s e r s1 -> gsettles powf img upcall L hidden l None (next_pc (fst st1)) (top_slot l c (snd st0)) tr tt_ c h r s1).
  { intros r s1 EV. eapply (expr_works powf img upcall L hidden calls ups entry functions_ok calls_local l None KN e tr st0 st1);
      [exact E|exact W0|exact LD1|apply fine_none, LO|exact STl|exact PC| | | | |exact EV].
    - apply spare_all. lia.
    - apply (reserve_small _ _ _ RT).
    - right. rewrite R4, R2. lia.
    - intros v p md _ _ _. rewrite RI. apply le_n. }
  assert (FJ : fetched img de (IJump t)).
  { eapply has_at; [exact HS|apply J5; left; reflexivity|discriminate|exact PX1]. }
  split.
  - intros er s1 EV. apply SET in EV. exact EV.
  - intros d s1 ch s2 EV PK. apply SET in EV. destruct EV as [F|(c1 & h1 & R & P & V & H1)]; [left; exact F|].
    assert (GO1 : go c h c1 h1) by (eapply go_reach; [exact R|unfold top_slot; lia|exact FP]).
    assert (HE : held img L hidden l tr tt_ d s1 c1 h1) by (constructor; assumption).
    destruct (dispatch_sim powf img upcall L hidden calls ups entry L_ok L_ns L_ap functions_ok calls_local l tr tt_ d lin tis apos x x' HS ep s1 cases ch s2 PK _ _ _ _ _ _ c1 h1 E0 PE1 AU2) as [K|K];
      [lia|intros a []|exact LC| |exact HE|exact P| |].
    + destruct G1 as [_ TN]. rewrite TN. cbn [st0 snd frozen ts_next]. apply N.le_refl.
    + left. eapply stuck_go; eassumption.
    + right. destruct ch as [|k|er].
      * destruct K as (c2 & h2 & G22 & EN & HE2). assert (G12 : go c h c2 h2) by (eapply go_trans; eassumption).
        assert (AT : exists c3, go c2 h2 c3 h2 /\ c_pc c3 = de /\ state l c3 h2 s2).
        { destruct next as [[a p]|]; cbn [entered] in EN.
          - destruct (J3 a p eq_refl) as (t1 & C1 & T1). exists (set_pc c2 (N.to_nat t1)). split.
            + eapply go_jump; [apply (he_state _ _ _ _ _ _ _ _ _ _ HE2)|apply (he_state _ _ _ _ _ _ _ _ _ _ HE2)|]. rewrite EN. eapply has_at; [exact HS|apply (la_code _ _ A41); [exact C1|discriminate]|discriminate|].
              apply RNG, in_app_iff. right. left. reflexivity.
            + split; [exact T1|]. apply state_pc, (he_state _ _ _ _ _ _ _ _ _ _ HE2).
          - exists c2. split; [apply go_refl, (he_state _ _ _ _ _ _ _ _ _ _ HE2)|]. split; [exact EN|apply HE2]. }
        destruct AT as (c3 & G33 & PC3 & ST3).
        destruct (jumped powf img upcall L hidden L_ns l (snd x') c3 h2 s2 t (s_pc x') ST3) as (c4 & h4 & G44 & PC4 & ST4); [rewrite PC3; exact FJ|exact T'| |apply HS|].
        { eapply ext_trans; [exact EL|apply (la_syms _ _ A21)]. }
        exists c4, h4. split; [|auto]. eapply go_trans; [exact G12|]. eapply go_trans; eassumption.
      * destruct K as (c2 & h2 & b & j & hn & G22 & NTH & IJ & HE2). cbn [length Nat.add] in NTH.
        destruct (BA k b j hn NTH) as (xb & zb & [B1 B2 B3 B4 B5 B6 B7 B8 B9]).
        assert (NC : exists gs, nth_error cases k = Some (gs, b)).
        { assert (M : nth_error (map snd cases) k = Some b) by (rewrite <- MB; erewrite map_nth_error; [|exact NTH]; reflexivity).
          rewrite nth_error_map in M. destruct (nth_error cases k) as [[gs b']|]; [|discriminate M]. injection M as ->. eauto. }
        destruct NC as [gs NC]. assert (LB : later zb x') by (eapply later_trans; eassumption).
        destruct (B7 _ IJ) as (t1 & C1 & T1).
        assert (XB : ext l (snd xb)) by (eapply ext_trans; [|exact B4]; rewrite S3; exact EL).
        assert (FA : fetched img (c_pc c2) (IJump t1)).
        { eapply has_at; [exact HS|apply (la_code _ _ LX5); [exact C1|discriminate]|discriminate|]. apply RNG, in_app_iff. left.
          unfold addrs. apply in_flat_map. exists (b, j, hn). split; [eapply nth_error_In, NTH|exact IJ]. }
        assert (XZ : ext (snd zb) L) by (eapply ext_trans; [apply (la_syms _ _ LB)|apply HS]).
        assert (XBZ : ext (snd xb) (snd zb)).
        { rewrite Forall_forall in BF. destruct (BF (gs, b)) as [BB _]; [eapply nth_error_In, NC|].
          eapply ext_grows, (BB _ _ B1), B2. }
        destruct (jumped powf img upcall L hidden L_ns l (snd xb) c2 h2 s2 t1 (s_pc xb)) as (c4 & h4 & G44 & PC4 & ST4);
          [apply HE2|exact FA|exact T1|exact XB|eapply ext_trans; eassumption|].
        exists gs, b, xb, zb, c4, h4. split; [exact NC|]. split; [exact B1|]. split; [exact B2|].
        assert (PB : s_pc x <= s_pc xb) by (rewrite P3 in B5; unfold x2 in B5; rewrite s_emit_pc in B5; lia).
        split; [eapply has_inner; [exact HS|exact LB|exact PB]|]. split; [eapply go_trans; [exact GO1|eapply go_trans; eassumption]|]. split; [exact PC4|]. split; [exact ST4|].
        assert (X' : ext (snd zb) (snd x')) by apply LB.
        split; [|split; [exact X'|rewrite DO5, FO5; split; [eapply top_kept_grows; apply B6|split; [eapply top_kept_grows; apply B6|]]]].
        2:{ eapply exits_kept_trans; [eapply exits_kept_grows, B6|apply exits_kept_later; [exact EX5|exact LX5]]. }
        intros c5 h5 s5 ST5 PC5. destruct hn.
        -- eapply jumped; [exact L_ns|exact ST5| |exact T'|exact X'|apply HS]. rewrite PC5. eapply has_at; [exact HS|apply J5; right; apply B8; reflexivity|discriminate|].
           rewrite Forall_forall in BF. destruct (BF (gs, b)) as [BB _]; [eapply nth_error_In, NC|].
           pose proof (sgrows_pc _ _ _ (BB _ _ B1 ltac:(apply B2))). lia.
        -- destruct (B9 eq_refl) as [Q1 Q2]; [apply Nat.eqb_eq; eapply HN; [exact NTH|reflexivity]|].
           exists c5, h5. split; [apply go_refl, ST5|]. split; [congruence|]. rewrite S5, <- Q2. exact ST5.
      * eapply gfails_go; eassumption.
Qed.
End Bodies.
