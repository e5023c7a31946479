(** Blocks of statements in programs, with yields, and whole images. *)
From Verif Require Import Base Bytecode_Model Bytecode_Spec Bytecode_Proofs Mem_Model Mem_Spec Mem_Proofs Num_Model
  Vm_Model Vm_Spec Vm_Proofs Ids_Model Ids_Spec Ids_Proofs Ast_Model Syms_Model Syms_Proofs Codegen_Model
  Codegen_Proofs Exprs_Model Exprs_Proofs Top_Model Top_Proofs Layout_Proofs Incr_Spec Incr_Proofs Eval_Spec Eval_Proofs
  Args_Spec Call_Spec Run_Proofs Call_Proofs Host_Proofs Exec_Spec Exec_Proofs Flow_Proofs Select_Proofs Stmt_Proofs Range_Proofs
  Steady_Proofs Defs_Proofs.

(** * Stopping changes nothing *)

Definition final (s : stop) : Prop := match s with SEnd _ | SException _ _ | SEof => True | _ => False end.

Lemma stop_inj s c h s' c' h' : RStop s c h = RStop s' c' h' -> s = s' /\ c = c' /\ h = h'.
Proof. intros E. injection E as -> -> ->. auto. Qed.

Ltac stop_tac :=
  repeat match goal with |- (match ?q with _ => _ end) = _ -> _ => destruct q end;
  intros SS FF;
  first [ discriminate SS
        | apply stop_inj in SS as (<- & <- & <-); first [contradiction FF | split; reflexivity] ].

Lemma dispatch_stop powf img c h i s c' h' : dispatch powf img c h i = RStop s c' h' -> final s -> c' = c /\ h' = h.
Proof.
  destruct i as [o d a b|o r|d t|d p f|reg tg|tg|tg|r tg|d i|d i|d t r|d s0| | |m tg|i r|i r|]; cbn [dispatch];
    unfold set_exception, do_return, set_exception.
  - destruct o; cbn [do_op3]; unfold do_binary_double_op, do_binary_double_predicate_op, do_binary_integer_op,
      do_binary_integer_predicate_op, do_binary_boolean_op, do_binary_text_op, do_concat, do_load_array, do_store_array, set_exception;
      stop_tac.
  - destruct o; cbn [do_op1]; unfold set_exception; stop_tac.
  - stop_tac.
  - unfold do_alloc_array, set_exception. cbv zeta. stop_tac.
  - stop_tac.
  - stop_tac.
  - stop_tac.
  - stop_tac.
  - stop_tac.
  - stop_tac.
  - stop_tac.
  - stop_tac.
  - stop_tac.
  - stop_tac.
  - stop_tac.
  - stop_tac.
  - stop_tac.
  - stop_tac.
Qed.

Lemma step_stop powf img c h s c' h' : step powf img c h = RStop s c' h' -> final s -> c' = c /\ h' = h.
Proof.
  unfold step. assert (F : fetch_exec powf img c h = RStop s c' h' -> final s -> c' = c /\ h' = h).
  { unfold fetch_exec. destruct (nth_error _ _); [|discriminate]. destruct (decode _); [|discriminate]. apply dispatch_stop. }
  destruct (c_yield c); [|exact F]. destruct (stmt_start _ _) as [[]|]; [|exact F|discriminate].
  intros E. injection E as <- <- <-. intros [].
Qed.

Section Lift.
Variable powf : N -> N -> N.
Variable img : image.
Context {W : Type}.
Variable upcall : N -> N -> nat -> image -> ctx -> heap -> W -> option (upcall_result W).
Hypothesis up_scope : forall idx first pc c c' h w, c_regs c = c_regs c' -> c_fp c = c_fp c' ->
  upcall idx first pc img c h w = upcall idx first pc img c' h w.
Variable L : lsyms.
Variable hidden : N -> option hdatum.
Notation sim := (sim powf img upcall L hidden).
Notation runs := (runs powf upcall img).
Hypothesis M : meta_covers img.
Implicit Types (h : mem W) (s : env W).

Lemma yeq_frame a d c : yeq d c -> same_frame a c -> same_frame a d.
Proof. intros Q. destruct (yeq_set _ _ (yeq_sym _ _ Q)) as [y ->]. auto. Qed.
Lemma frame_yield a d c : yeq d c -> same_frame c a -> same_frame d a.
Proof. intros Q. destruct (yeq_set _ _ (yeq_sym _ _ Q)) as [y ->]. auto. Qed.
Lemma yeq_pc d c : yeq d c -> c_pc d = c_pc c.
Proof. intros Q. destruct (yeq_set _ _ (yeq_sym _ _ Q)) as [y ->]. reflexivity. Qed.

(** From [d], which may have a yield pending. *)
Lemma lift_sim x' c h s' g d : c_yield c = false -> yeq d c -> sim x' c h s' g ->
  outcome_of powf upcall img L hidden x' d h s' g.
Proof.
  intros Y QD [K|K].
  - destruct K as (c' & h' & ST & GU). pose proof (gsteps_no_yield _ _ _ _ _ _ _ ST Y) as Y'.
    destruct (lift_steps powf img upcall up_scope _ _ _ _ M ST Y d QD) as (d1 & R1 & Q1).
    destruct (lift_gives_up powf img upcall up_scope _ _ _ M Y' Q1 GU) as (d2 & R2 & Q2 & GU2).
    exists d2, h'. split; [eapply runs_trans; eassumption|]. left. exact GU2.
  - assert (KE : forall e, gfails powf img upcall c h e (world s') -> outcome_of powf upcall img L hidden x' d h s' (SigError e)).
    { intros e (c' & h' & ST & GU). pose proof (gsteps_no_yield _ _ _ _ _ _ _ ST Y) as Y'.
      destruct (lift_steps powf img upcall up_scope _ _ _ _ M ST Y d QD) as (d1 & R1 & Q1).
      destruct (lift_fails powf img upcall up_scope _ _ _ _ _ M Y' Q1 GU) as (d2 & R2 & Q2 & GU2).
      exists d2, h'. split; [eapply runs_trans; eassumption|]. right. exact GU2. }
    assert (KA : (forall e, g <> SigError e) -> arrives powf img upcall L hidden x' c h s' g -> outcome_of powf upcall img L hidden x' d h s' g).
    { intros NE (c' & h' & (ST & FR & HK & _) & PL & HD). pose proof (gsteps_no_yield _ _ _ _ _ _ _ ST Y) as Y'.
      destruct (lift_steps powf img upcall up_scope _ _ _ _ M ST Y d QD) as (d1 & R1 & Q1).
      assert (HD1 : forall d2, yeq d2 c' -> holding L hidden (i_constants img) (snd x') None (set_yield d2 false) h' s').
      { intros d2 Q2. rewrite (yeq_clear _ _ Q2 Y'). exact HD. }
      assert (FR1 : forall d2, yeq d2 c' -> same_frame d d2).
      { intros d2 Q2. eapply frame_yield; [exact QD|]. eapply yeq_frame; [exact Q2|exact FR]. }
      destruct g; cbn [place] in PL; try (exists d1, h'; split; [exact R1|]; right; split; [apply FR1, Q1|]; split; [exact HK|];
        split; [cbn [place]; rewrite ?(yeq_pc _ _ Q1); exact PL|apply HD1, Q1]).
      - destruct PL as [h9 PL]. destruct (step_stop _ _ _ _ _ _ _ PL Logic.I) as [_ ->].
        destruct (catch_up powf img upcall up_scope _ _ _ _ M Y' Q1 PL ltac:(discriminate)) as (d2 & R2 & Q2 & RQ).
        exists d2, h'. split; [eapply runs_trans; eassumption|]. right. split; [apply FR1, Q2|]. split; [exact HK|].
        split; [|apply HD1, Q2]. cbn [place]. destruct (step powf img d2 h') as [|s1 c1 h1|] eqn:E1; cbn [req] in RQ; try contradiction.
        destruct RQ as (-> & _ & _). destruct (step_stop _ _ _ _ _ _ _ E1 Logic.I) as [-> ->]. eexists. reflexivity.
      - destruct (NE e eq_refl). }
    destruct g; try (apply KA; [discriminate|exact K]). apply KE, K.
Qed.
End Lift.

(** * States of the compiler within a session *)

Definition start_of (k : compiler) : sst := (set_gen (pop_eof (t_gen (k_ctx k))) (k_ctx k), k_syms k).

Lemma pop_gwf g : gwf g -> gwf (pop_eof g).
Proof.
  intros (A & B & C). unfold pop_eof. destruct (g_code g) eqn:E; [split; [congruence|auto]|].
  split; [|auto]. unfold with_code. cbn [g_code g_instrs]. rewrite !length_removelast. congruence.
Qed.

Lemma start_ok k img : synced k img -> ok (start_of k).
Proof.
  intros Y. split.
  - split; [apply pop_gwf, Y|]. intros _. apply Y.
  - unfold inv, pend, start_of. cbn [fst t_do t_for t_exits set_gen s_gen t_gen].
    assert (F : g_fixups (pop_eof (t_gen (k_ctx k))) = []).
    { rewrite <- (sy_fix _ _ Y). unfold pop_eof. destruct (g_code _); reflexivity. }
    unfold s_gen. cbn [fst set_gen t_gen]. rewrite F, (sy_do _ _ Y), (sy_for _ _ Y), (sy_exits _ _ Y).
    cbn [concat app map]. split; [constructor|]. intros a [].
Qed.

Lemma session_ranged up defs srcs k img : session up defs srcs k img -> ranged (t_gen (k_ctx k)).
Proof.
  induction 1 as [k H|srcs src k img o k' img' SE IH H].
  - eapply compiler_new_ranged. exact H.
  - destruct o.
    + destruct (compile_more_synced _ _ _ _ _ (session_synced _ _ _ _ _ SE) H) as (_ & _ & _ & _ & _ & x & g' & C & _ & F & -> & _).
      eapply fixups_ranged; [exact F|]. apply rg_emit; [|exact I]. eapply stmts_ranged; [exact C|].
      apply rg_pop, IH.
    + destruct (compile_more_fails _ _ _ _ _ _ H ltac:(discriminate)) as [-> ->]. exact IH.
    + destruct (compile_more_fails _ _ _ _ _ _ H ltac:(discriminate)) as [-> ->]. exact IH.
Qed.

Lemma session_decodes up defs srcs k img : session up defs srcs k img ->
  forall w, In w (ci_code img) -> exists i, in_range i /\ decode w = Some i /\ encode i = w.
Proof.
  intros H. assert (K : exists g, ranged g /\ forall w, In w (ci_code img) -> In w (map encode (g_code g)) \/ w = encode IEof).
  { induction H as [k H|srcs src k img o k' img' SE IH H].
    - exists codegen_new. split; [apply rg_new|]. intros w [<-|[]]. auto.
    - destruct o.
      + exists (t_gen (k_ctx k')). split; [eapply session_ranged; econstructor; eassumption|].
        destruct (compile_more_synced _ _ _ _ _ (session_synced _ _ _ _ _ SE) H) as (_ & _ & -> & _). auto.
      + destruct (compile_more_fails _ _ _ _ _ _ H ltac:(discriminate)) as [-> ->]. exact IH.
      + destruct (compile_more_fails _ _ _ _ _ _ H ltac:(discriminate)) as [-> ->]. exact IH. }
  destruct K as (g & R & K). intros w Iw. destruct (K w Iw) as [M| ->].
  - apply in_map_iff in M as (i & <- & Ii). exists i. pose proof (proj1 (Forall_forall _ _) (rg_code _ R) _ Ii).
    auto using decode_encode.
  - exists IEof. split; [exact I|]. split; [apply decode_encode; exact I|reflexivity].
Qed.

Lemma register_globals_twf defs : forall arrays s arrays' s', register_globals defs arrays s = COk (arrays', s') ->
  twf (gs_vars (snd s)) -> twf (gs_vars (snd s')).
Proof.
  induction defs as [|[n k] defs IH]; intros arrays s arrays' s' H T; cbn [register_globals] in H.
  - apply COk_inj, pair_inj in H as [_ <-]. exact T.
  - apply bind_ok in H as (u0 & _ & H). unfold put_global in H.
    destruct (put_var _ _ _ _ _) as [[t [r|]]|] eqn:P; try discriminate H.
    apply put_var_grows in P as (G & _ & ->).
    assert (T' : twf (gs_vars (mkGsyms (gs_vars (snd s) ++ [(symkey n, (match k with GkScalar t0 _ => PScalar t0 | GkArray t0 dims => PArray t0 (length dims) end, N.of_nat (id_len (gs_vars (snd s)))))]) (gs_upcalls (snd s)) (gs_user (snd s))))).
    { cbn [gs_vars]. apply (tgrows_add (gs_vars (snd s))); assumption. }
    destruct k as [t0 init|t0 dims].
    + apply bind_ok in H as (g & _ & H). apply (IH _ _ _ _ H T').
    + apply (IH _ _ _ _ H T').
Qed.

Lemma session_tables up defs srcs k img : session up defs srcs k img -> tables_ok (k_syms k).
Proof.
  induction 1 as [k H|srcs src k img o k' img' SE IH H].
  - unfold compiler_new, prepare_globals in H. apply bind_ok in H as ([g gs] & H & K).
    apply COk_inj in K. subst k. apply bind_ok in H as ([arrays [g1 gs1]] & E & H). cbn beta iota in H.
    apply bind_ok in H as (g2 & A & H). apply COk_inj, pair_inj in H as [<- <-].
    split; [exists []; apply wf_empty|]. apply (register_globals_twf _ _ _ _ _ E). exists []. apply wf_empty.
  - destruct o.
    + destruct (compile_more_synced _ _ _ _ _ (session_synced _ _ _ _ _ SE) H) as (_ & _ & _ & _ & _ & x & g' & C & _ & _ & _ & -> & _).
      pose proof (stmts_bframe _ _ _ C (ok_wf _ (start_ok _ _ (session_synced _ _ _ _ _ SE)))) as G.
      destruct (sg_syms _ _ _ G) as [A B _ _]. destruct IH as [T1 T2]. split; [apply A, T1|apply B, T2].
    + destruct (compile_more_fails _ _ _ _ _ _ H ltac:(discriminate)) as [-> ->]. exact IH.
    + destruct (compile_more_fails _ _ _ _ _ _ H ltac:(discriminate)) as [-> ->]. exact IH.
Qed.


(** * Definitions *)

Lemma pop_callables g : g_callables (pop_eof g) = g_callables g.
Proof. unfold pop_eof. destruct (g_code g); reflexivity. Qed.
Lemma session_known up defs srcs k img : session up defs srcs k img -> known (vw (start_of k)).
Proof.
  assert (POP : forall k, known (g_callables (t_gen (k_ctx k)), t_defined (k_ctx k), t_current (k_ctx k)) -> known (vw (start_of k))).
  { intros k0 H. unfold vw, start_of, s_gen. cbn [fst set_gen t_gen t_defined t_current].
    rewrite pop_callables. exact H. }
  induction 1 as [k H|srcs src k img o k' img' SE IH H].
  - apply POP. intros key p E. cbn [fst snd] in *.
    pose proof (globals_steady _ (callables_steady []) _ _ _ H eq_refl) as G. unfold same_callables in G. rewrite G in E. discriminate E.
  - destruct o.
    + apply POP. destruct (compile_more_synced _ _ _ _ _ (session_synced _ _ _ _ _ SE) H) as (Y & _ & _ & _ & _ & x & g' & C & _ & F & -> & _ & _ & -> & _).
      intros key p E. cbn [fst snd] in *. unfold apply_fixups in F.
      destruct (apply_fixup_list_grows 0 _ _ _ F) as (_ & _ & _ & _ & _ & _ & _ & _ & GC).
      { apply Forall_forall. intros; lia. }
      rewrite GC in E. cbn [g_callables emit with_code] in E.
      exact (vle_known _ _ (block_views _ _ _ C IH) key p E).
    + destruct (compile_more_fails _ _ _ _ _ _ H ltac:(discriminate)) as [-> ->]. exact IH.
    + destruct (compile_more_fails _ _ _ _ _ _ H ltac:(discriminate)) as [-> ->]. exact IH.
Qed.

(** The entries of the callables, and the labels, that a compiler knows. *)
Definition entry_of (k : compiler) (p : point) (target : N) : Prop :=
  match p with
  | AtCallable key => exists e, assoc (g_callables (t_gen (k_ctx k))) key = Some (N.to_nat target, e)
  | AtLabel l => assoc (g_labels (t_gen (k_ctx k))) l = Some (N.to_nat target)
  end.
Lemma pop_labels g : g_labels (pop_eof g) = g_labels g.
Proof. unfold pop_eof. destruct (g_code g); reflexivity. Qed.

Lemma entries_kept up defs srcs k img src o k' img' : session up defs srcs k img -> compile_more k img src = (o, k', img') ->
  forall p target, entry_of k p target -> entry_of k' p target.
Proof.
  intros SE H. destruct o.
  2,3: destruct (compile_more_fails _ _ _ _ _ _ H ltac:(discriminate)) as [-> _]; auto.
  destruct (compile_more_synced _ _ _ _ _ (session_synced _ _ _ _ _ SE) H) as (_ & _ & _ & _ & _ & x & g' & C & _ & F & EQ & _).
  unfold apply_fixups in F. destruct (apply_fixup_list_grows 0 _ _ _ F) as (_ & _ & _ & _ & _ & _ & _ & GL & GC).
  { apply Forall_forall. intros; lia. }
  intros [key|l] target.
  2:{ cbn [entry_of]. intros E. rewrite EQ, GL. cbn [g_labels emit with_code].
    apply (gr_labels _ _ _ (sg_gen _ _ _ (stmts_bframe _ _ _ C (ok_wf _ (start_ok _ _ (session_synced _ _ _ _ _ SE)))))).
    unfold start_of, s_gen. cbn [fst set_gen t_gen]. rewrite pop_labels. exact E. }
  intros [e E]. exists e. rewrite EQ. rewrite GC. cbn [g_callables emit with_code].
  apply (vl_kept _ _ (block_views _ _ _ C (session_known _ _ _ _ _ SE))).
  unfold vw, start_of, s_gen. cbn [fst set_gen t_gen].
  rewrite pop_callables. exact E.
Qed.

Lemma fixups_calls l : forall g g', apply_fixup_list l g = COk g' -> NoDup (map fst l) ->
  (forall a, In a (map fst l) -> a < length (g_code g)) ->
  forall a reg k, In (a, FxCall reg k) l ->
  exists t e, assoc (g_callables g) k = Some (N.to_nat t, e) /\ nth_error (g_code g') a = Some (ICall reg t).
Proof.
  induction l as [|[a0 f] l IH]; intros g g' H ND LT a reg k IN; [destruct IN|]. cbn [apply_fixup_list] in H.
  destruct (nth_error (g_instrs g) a0) as [m|]; [|discriminate H]. apply bind_ok in H as (i & R & H).
  cbn [map fst] in ND. apply NoDup_cons_iff in ND as [N1 ND].
  assert (LT1 : forall a, In a (map fst l) -> a < length (g_code (patch a0 i g))).
  { intros b B. cbn [patch with_code g_code]. rewrite upd_length. apply LT. right. exact B. }
  destruct IN as [E|IN].
  - injection E as -> ->. cbn [resolve_fixup] in R. destruct (assoc (g_callables g) k) as [[tg e]|] eqn:A; [|discriminate R].
    apply bind_ok in R as (t & MT & R). apply COk_inj in R. subst i. unfold make_target in MT.
    destruct (N.of_nat tg <? 65536)%N; [|discriminate MT]. apply COk_inj in MT. subst t.
    exists (N.of_nat tg), e. rewrite Nat2N.id. split; [reflexivity|].
    destruct (apply_fixup_list_grows 0 _ _ _ H) as (_ & _ & _ & C & _). { apply Forall_forall. intros; lia. }
    rewrite C.
    + cbn [patch with_code g_code]. apply upd_nth_same. apply LT. left. reflexivity.
    + apply Forall_forall. intros [b f] B E. cbn [fst] in E. subst b. apply N1. apply (in_map fst) in B. exact B.
  - exact (IH _ _ H ND LT1 a reg k IN).
Qed.

Lemma fixups_gotos l : forall g g', apply_fixup_list l g = COk g' -> NoDup (map fst l) ->
  (forall a, In a (map fst l) -> a < length (g_code g)) ->
  forall a f, In (a, f) l ->
  match f with
  | FxGoto k => exists t, assoc (g_labels g) (symkey k) = Some (N.to_nat t) /\ nth_error (g_code g') a = Some (IJump t)
  | FxGosub k => exists t, assoc (g_labels g) (symkey k) = Some (N.to_nat t) /\ nth_error (g_code g') a = Some (IGosub t)
  | _ => True
  end.
Proof.
  induction l as [|[a0 f0] l IH]; intros g g' H ND LT a f IN; [destruct IN|]. cbn [apply_fixup_list] in H.
  destruct (nth_error (g_instrs g) a0) as [m|]; [|discriminate H]. apply bind_ok in H as (i & R & H).
  cbn [map fst] in ND. apply NoDup_cons_iff in ND as [N1 ND].
  assert (LT1 : forall a, In a (map fst l) -> a < length (g_code (patch a0 i g))).
  { intros b B. cbn [patch with_code g_code]. rewrite upd_length. apply LT. right. exact B. }
  destruct IN as [E|IN]; [|exact (IH _ _ H ND LT1 a f IN)].
  injection E as -> ->.
  assert (AT : nth_error (g_code g') a = Some i).
  { destruct (apply_fixup_list_grows 0 _ _ _ H) as (_ & _ & _ & C & _). { apply Forall_forall. intros; lia. }
    rewrite C.
    - cbn [patch with_code g_code]. apply upd_nth_same. apply LT. left. reflexivity.
    - apply Forall_forall. intros [b f1] B E. cbn [fst] in E. subst b. apply N1. apply (in_map fst) in B. exact B. }
  rewrite AT. clear -R. destruct f as [r k|k|k|k]; cbn [resolve_fixup] in R; try exact Logic.I;
    (destruct (assoc (g_labels g) (symkey k)) as [tg|]; [|discriminate R]);
    apply bind_ok in R as (t & MT & R); apply COk_inj in R; subst i; unfold make_target in MT;
    (destruct (N.of_nat tg <? 65536)%N; [|discriminate MT]); apply COk_inj in MT; subst t;
    exists (N.of_nat tg); rewrite Nat2N.id; split; reflexivity.
Qed.

(** * The code of an input in the image *)

Lemma nodup_left {A} (a b : list A) : NoDup (a ++ b) -> NoDup a.
Proof.
  induction a as [|x a IH]; intros H; [constructor|]. cbn [app] in H. apply NoDup_cons_iff in H as [N1 H].
  constructor; [intros I0; apply N1, in_or_app; auto|auto].
Qed.
Lemma wf_same {K V} (m : @idmap K V) a b : wf m a -> wf m b -> a = b.
Proof. intros (<- & _) (<- & _). reflexivity. Qed.

Section Input.
Variable up : list (ustr * callable_md).
Variable defs : list global_def.

(** All of an input. *)
Lemma input_has srcs k img src k' img' xe : session up defs srcs k img -> compile_more k img src = (Compiled, k', img') ->
  compile_stmts (fst src) (start_of k) = COk xe ->
  has (runnable img') (k_syms k') (ci_upcalls img') (entry_of k') (start_of k) xe /\ ok xe /\
  s_pc xe < length (ci_code img') /\ k_syms k' = snd xe /\ fetched (runnable img') (s_pc xe) IEof.
Proof.
  intros SE H C. pose proof (session_synced _ _ _ _ _ SE) as SY. pose proof (start_ok _ _ SY) as O.
  destruct (compile_more_synced _ _ _ _ _ SY H) as (SY' & _ & CODE & META & _ & x & g' & C' & _ & F & EQ & KS & _ & _ & WC & WU).
  fold (start_of k) in C'. rewrite C in C'. apply COk_inj in C'. subst x.
  assert (OX : ok xe).
  { split; [eapply sgrows_swf; [eapply stmts_bframe; [exact C|apply O]|apply O]|eapply block_iframe; [exact C|apply O|apply O]]. }
  assert (R' : ranged (t_gen (k_ctx k'))) by (eapply session_ranged; econstructor; [exact SE|exact H]).
  set (ge := emit IEof (0, 0)%N (s_gen xe)) in *. unfold apply_fixups in F.
  assert (FX : g_fixups ge = g_fixups (s_gen xe)) by reflexivity. rewrite FX in F.
  destruct (apply_fixup_list_grows 0 _ _ _ F) as (_ & PC & _ & KEEP & GIN & GCO & GUP & GLA & GCA). { apply Forall_forall. intros; lia. }
  cbn [g_constants g_upcalls g_callables] in GCO, GUP, GCA.
  assert (PCE : next_pc ge = S (s_pc xe)) by apply emit_pc.
  assert (LEN : length (g_code g') = S (s_pc xe)) by (rewrite <- PCE; exact PC).
  assert (AT : forall p i, nth_error (g_code g') p = Some i -> fetched (runnable img') p i).
  { intros p i E. exists (encode i). cbn [runnable i_code]. rewrite CODE, EQ. split; [apply map_nth_error, E|].
    apply decode_encode. rewrite EQ in R'. exact (proj1 (Forall_forall _ _) (rg_code _ R') _ (nth_error_In _ _ E)). }
  destruct OX as [WX [ND NOP]].
  assert (NDF : NoDup (map fst (g_fixups (s_gen xe)))) by (unfold pend in ND; exact (nodup_left _ _ ND)).
  assert (NOPF : forall a, In a (map fst (g_fixups (s_gen xe))) -> code_at xe a = Some INop) by (intros a Ia; apply NOP, in_or_app; left; exact Ia).
  assert (LTF : forall a, In a (map fst (g_fixups (s_gen xe))) -> a < length (g_code (mkCodegen (g_code ge) (g_instrs ge) (g_constants ge) [] (g_labels ge) (g_callables ge) (g_upcalls ge)))).
  { intros b B. apply NOPF in B. apply code_lt in B. cbn [g_code]. unfold ge, emit, with_code. cbn [g_code]. rewrite app_length.
    unfold s_pc, next_pc in B. lia. }
  assert (EMT : forall p, p < s_pc xe -> nth_error (g_code ge) p = code_at xe p).
  { intros p LT. unfold ge, emit, with_code. cbn [g_code]. rewrite nth_error_app1 by exact LT. reflexivity. }
  split; [|split; [split; [exact WX|split; [exact ND|exact NOP]]|split; [|split; [exact KS|]]]].
  - constructor; [constructor|].
    + intros p i [_ LT] E NN. apply AT. rewrite KEEP.
      * cbn [g_code]. rewrite EMT by exact LT. exact E.
      * apply Forall_forall. intros [a f] Ia Ea. cbn [fst] in Ea. subst a. apply (in_map fst) in Ia. cbn [fst] in Ia.
        apply NOPF in Ia. unfold code_at in Ia. congruence.
    + intros ord WO. exists []. rewrite app_nil_r. cbn [runnable i_constants]. rewrite GCO in WC.
      symmetry. eapply wf_same; [exact WO|exact WC].
    + intros ord WO. exists []. rewrite app_nil_r. rewrite GUP in WU.
      symmetry. eapply wf_same; [exact WO|exact WU].
    + intros a reg key _ IN.
      destruct (fixups_calls _ _ _ F NDF) with (a := a) (reg := reg) (k := key) as (t & e & AS & NE); [|exact IN|].
      * exact LTF.
      * exists t. split; [|apply AT, NE]. exists e. rewrite EQ, GCA. exact AS.
    + intros a key. split; intros IN; destruct (fixups_gotos _ _ _ F NDF LTF _ _ IN) as (t & AS & NE);
        (exists t; split; [cbn [entry_of]; rewrite EQ, GLA; exact AS|apply AT, NE]).
    + intros key a t AS EN. cbn [entry_of] in EN. rewrite EQ, GLA in EN. cbn [g_labels] in EN. unfold ge, emit, with_code in EN. cbn [g_labels] in EN. congruence.
    + intros a md [_ LT] E. exists md. cbn [runnable i_meta]. rewrite META, EQ, GIN. split; [|reflexivity].
      cbn [g_instrs]. unfold ge, emit, with_code. cbn [g_instrs]. rewrite nth_error_app1; [exact E|]. apply nth_error_Some. congruence.
    + rewrite KS. apply ext_refl.
  - rewrite CODE, EQ, map_length, LEN. lia.
  - apply AT. rewrite KEEP.
    + cbn [g_code]. unfold ge. apply emit_at.
    + apply Forall_forall. intros [a f] Ia Ea. cbn [fst] in Ea. subst a. apply (in_map fst) in Ia. cbn [fst] in Ia.
      apply NOPF, code_lt in Ia. lia.
Qed.

Lemma kept_prefix {A} (a : list A) : forall b, kept a b -> exists r, b = a ++ r.
Proof.
  induction a as [|x a IH]; intros b K; [exists b; reflexivity|]. destruct b as [|y b]; [discriminate (K 0 x eq_refl)|].
  pose proof (K 0 x eq_refl) as E. injection E as ->. destruct (IH b) as [r ->]; [intros i z; exact (K (S i) z)|].
  exists r. reflexivity.
Qed.

Lemma has_after img img' L L' (entry entry' : point -> N -> Prop) x x' :
  has (runnable img) L (ci_upcalls img) entry x x' -> ok x' -> only_appended img img' -> ext L L' ->
  (forall k t, entry k t -> entry' k t) ->
  (forall l a t, assoc (g_labels (s_gen x')) l = Some a -> entry' (AtLabel l) t -> N.to_nat t = a) -> s_pc x' < length (ci_code img) ->
  length (ci_instrs img) = length (ci_code img) ->
  has (runnable img') L' (ci_upcalls img') entry' x x'.
Proof.
  intros [[A B C D D' _ A7] S0] O OA EX EN LA LT ML.
  destruct (kept_prefix _ _ (oa_constants _ _ OA)) as [rc CO]. destruct (kept_prefix _ _ (oa_upcalls _ _ OA)) as [ru UP].
  assert (AT : forall p i, p < s_pc x' -> fetched (runnable img) p i -> fetched (runnable img') p i).
  { intros p i LP (w & E & DE). exists w. split; [|exact DE]. cbn [runnable i_code] in *. apply (oa_code _ _ OA); [lia|exact E]. }
  constructor; [constructor|].
  - intros p i [L1 L2] E NN. apply AT; [exact L2|]. apply A; auto.
  - intros ord WO. destruct (B _ WO) as [r E]. cbn [runnable i_constants] in *. exists (r ++ rc). rewrite CO, E, app_assoc. reflexivity.
  - intros ord WO. destruct (C _ WO) as [r E]. exists (r ++ ru). rewrite UP, E, app_assoc. reflexivity.
  - intros a reg key LE IN. destruct (D _ _ _ LE IN) as (t & E & F). exists t. split; [auto|]. apply AT; [|exact F].
    eapply inv_lt; [apply O|]. apply in_or_app. left. apply (in_map fst) in IN. exact IN.
  - intros a key. destruct (D' a key) as [D1 D2]. split; intros IN; [destruct (D1 IN) as (t & E & F)|destruct (D2 IN) as (t & E & F)]; exists t; (split; [auto|]);
      (apply AT; [|exact F]); (eapply inv_lt; [apply O|]); apply in_or_app; left; apply (in_map fst) in IN; exact IN.
  - exact LA.
  - intros a md R E. destruct (A7 a md R E) as (md' & E1 & E2). exists md'. split; [|exact E2].
    cbn [runnable i_meta] in *. apply (oa_meta _ _ OA); [|exact E1]. rewrite ML. change (next_pc (s_gen x')) with (s_pc x') in R. clear -R LT. lia.
  - eapply ext_trans; eassumption.
Qed.

Lemma syms_after srcs k img src o k' img' : session up defs srcs k img -> compile_more k img src = (o, k', img') ->
  ext (k_syms k) (k_syms k').
Proof.
  intros SE H. destruct o.
  2,3: destruct (compile_more_fails _ _ _ _ _ _ H ltac:(discriminate)) as [-> _]; apply ext_refl.
  destruct (compile_more_synced _ _ _ _ _ (session_synced _ _ _ _ _ SE) H) as (_ & _ & _ & _ & _ & x & g' & C & _ & F & _ & -> & _).
  apply (ext_grows (k_syms k)). apply (sg_syms _ _ _ (stmts_bframe _ _ _ C (ok_wf _ (start_ok _ _ (session_synced _ _ _ _ _ SE))))).
Qed.

Lemma compiled_session k img x l x' : compiled_in up defs k img x l x' -> exists srcs, session up defs srcs k img.
Proof.
  induction 1 as [srcs k img before l after x x' k' img' SE H _ _|k img x l x' src o k' img' _ [srcs SE] H];
    eexists; econstructor; eassumption.
Qed.

Lemma stmts_app a : forall b x x', compile_stmts (a ++ b) x = COk x' -> exists y, compile_stmts a x = COk y /\ compile_stmts b y = COk x'.
Proof.
  induction a as [|st a IH]; intros b x x' H; cbn [app compile_stmts] in *; [exists x; auto|].
  apply bind_ok in H as (y & E & H). destruct (IH _ _ _ H) as (z & A & B). exists z. split; [|exact B].
  cbn [bind]. rewrite E. exact A.
Qed.

Lemma input_labels srcs k img src k' img' xe : session up defs srcs k img -> compile_more k img src = (Compiled, k', img') ->
  compile_stmts (fst src) (start_of k) = COk xe -> g_labels (t_gen (k_ctx k')) = g_labels (s_gen xe).
Proof.
  intros SE H C. destruct (compile_more_synced _ _ _ _ _ (session_synced _ _ _ _ _ SE) H) as (_ & _ & _ & _ & _ & x & g' & C' & _ & F & EQ & _).
  fold (start_of k) in C'. rewrite C in C'. apply COk_inj in C'. subst x. unfold apply_fixups in F.
  destruct (apply_fixup_list_grows 0 _ _ _ F) as (_ & _ & _ & _ & _ & _ & _ & GL & _). { apply Forall_forall. intros; lia. }
  rewrite EQ, GL. reflexivity.
Qed.
Lemma compiled_labels k img x l x' : compiled_in up defs k img x l x' ->
  forall key a, assoc (g_labels (s_gen x')) key = Some a -> assoc (g_labels (t_gen (k_ctx k))) key = Some a.
Proof.
  induction 1 as [srcs k img before l after x x' k' img' SE H CB CL|k img x l x' src o k' img' CI IH H]; intros key a A.
  - destruct (compile_more_synced _ _ _ _ _ (session_synced _ _ _ _ _ SE) H) as (_ & _ & _ & _ & _ & xe & _ & C & _).
    cbn [fst] in C. rewrite (input_labels _ _ _ _ _ _ xe SE H C). destruct (stmts_app _ _ _ _ C) as (y & E & C1). fold (start_of k) in *.
    rewrite CB in E. apply COk_inj in E. subst y.
    destruct (stmts_app _ _ _ _ C1) as (y & E & C2). rewrite CL in E. apply COk_inj in E. subst y.
    pose proof (start_ok _ _ (session_synced _ _ _ _ _ SE)) as O.
    pose proof (stmts_bframe _ _ _ CB (ok_wf _ O)) as G1.
    assert (OX : ok x) by (split; [eapply sgrows_swf; [exact G1|apply O]|eapply block_iframe; [exact CB|apply O|apply O]]).
    pose proof (stmts_bframe _ _ _ CL (ok_wf _ OX)) as G2.
    assert (OX' : ok x') by (split; [eapply sgrows_swf; [exact G2|apply OX]|eapply block_iframe; [exact CL|apply OX|apply OX]]).
    exact (gr_labels _ _ _ (sg_gen _ _ _ (stmts_bframe _ _ _ C2 (ok_wf _ OX'))) key a A).
  - destruct (compiled_session _ _ _ _ _ CI) as [srcs SE].
    pose proof (entries_kept _ _ _ _ _ _ _ _ _ SE H (AtLabel key) (N.of_nat a)) as K. cbn [entry_of] in K. rewrite Nat2N.id in K. apply K, IH, A.
Qed.

(** Some statements of an input, at any later time. *)
Lemma compiled_has k img x l x' : compiled_in up defs k img x l x' ->
  has (runnable img) (k_syms k) (ci_upcalls img) (entry_of k) x x' /\ ok x /\ ok x' /\ compile_stmts l x = COk x' /\
  s_pc x' < length (ci_code img).
Proof.
  induction 1 as [srcs k img before l after x x' k' img' SE H CB CL|k img x l x' src o k' img' CI IH H].
  - destruct (compile_more_synced _ _ _ _ _ (session_synced _ _ _ _ _ SE) H) as (_ & _ & _ & _ & _ & xe & _ & C & _).
    cbn [fst] in C. destruct (stmts_app _ _ _ _ C) as (y & E & C1). fold (start_of k) in *. rewrite CB in E. apply COk_inj in E. subst y.
    destruct (stmts_app _ _ _ _ C1) as (y & E & C2). rewrite CL in E. apply COk_inj in E. subst y.
    destruct (input_has srcs k img _ k' img' xe SE H C) as (HS & OE & LT & _ & _).
    pose proof (start_ok _ _ (session_synced _ _ _ _ _ SE)) as O.
    pose proof (stmts_bframe _ _ _ CB (ok_wf _ O)) as G1.
    assert (OX : ok x) by (split; [eapply sgrows_swf; [exact G1|apply O]|eapply block_iframe; [exact CB|apply O|apply O]]).
    pose proof (stmts_bframe _ _ _ CL (ok_wf _ OX)) as G2.
    assert (OX' : ok x') by (split; [eapply sgrows_swf; [exact G2|apply OX]|eapply block_iframe; [exact CL|apply OX|apply OX]]).
    pose proof (stmts_bframe _ _ _ C2 (ok_wf _ OX')) as G3. pose proof (sgrows_pc _ _ _ G3) as L3.
    split; [|split; [exact OX|split; [exact OX'|split; [exact CL|lia]]]].
    eapply has_inner; [exact HS|apply later_grows, G3|eapply sgrows_pc, G1].
  - destruct IH as (A & B & C & D & E). destruct (compiled_session _ _ _ _ _ CI) as [srcs SE].
    destruct (more_appended _ _ _ _ _ _ (session_synced _ _ _ _ _ SE) H) as [_ OA].
    split; [|split; [exact B|split; [exact C|split; [exact D|pose proof (oa_longer _ _ OA); lia]]]].
    eapply has_after; [exact A|exact C|exact OA|eapply syms_after; eassumption|eapply entries_kept; eassumption| |exact E|apply (session_ends _ _ _ _ _ SE)].
    intros key a t A1 EN. pose proof (compiled_labels _ _ _ _ _ (compiled_before _ _ _ _ _ _ _ _ _ _ _ CI H) key a A1) as A2.
    cbn [entry_of] in EN. congruence.
Qed.

Lemma session_meta srcs k img : session up defs srcs k img -> meta_covers (runnable img).
Proof.
  intros SE. destruct (session_ends _ _ _ _ _ SE) as (_ & _ & E). unfold meta_covers, runnable. cbn [i_code i_meta]. lia.
Qed.

(** Running them, when calls do what they should. *)
Lemma block_runs powf {W} (upcall : N -> N -> nat -> image -> ctx -> heap -> W -> option (upcall_result W)) hidden calls
    k img l x x' c m s s' g l0 (s0 : env W) n :
  around up defs k img hidden l0 s0 ->
  compiled_in up defs k img x l x' -> no_shadowing (k_syms k) -> names_apart (k_syms k) ->
  (forall idx first pc c c' h w, c_regs c = c_regs c' -> c_fp c = c_fp c' ->
     upcall idx first pc (runnable img) c h w = upcall idx first pc (runnable img) c' h w) ->
  functions_obey powf (runnable img) upcall (k_syms k) hidden calls (ci_upcalls img) (entry_of k) ->
  (forall key gs s r s' k', calls key gs s r s' -> is_shared (k_syms k) k' = false -> (r = Ok None -> forall t, ~ In (GRef k' t) gs) -> vals s k' = None -> vals s' k' = None) ->
  commands_obey powf (runnable img) upcall (k_syms k) hidden calls (ci_upcalls img) (entry_of k) ->
  Forall (stmt_fine (k_syms k)) l -> ready (runnable img) (k_syms k) hidden x c m s ->
  execs_in powf (k_syms k) calls (gosubs powf (k_syms k) calls n s0 l0) s l s' g ->
  outcome_of powf upcall (runnable img) (k_syms k) hidden x' c m s' g.
Proof.
  intros (x0 & x0' & c0 & m0 & CI0 & FI0 & _ & HD0) CI NS AP UP FO CL CO FI [PC HD] X. destruct (compiled_has _ _ _ _ _ CI0) as (HS0 & OX0 & OX0' & C0 & LT0).
  destruct (compiled_has _ _ _ _ _ CI) as (HS & OX & OX' & C & LT).
  destruct (compiled_session _ _ _ _ _ CI) as [srcs SE].
  apply (lift_sim powf (runnable img) upcall UP (k_syms k) hidden (session_meta _ _ _ SE) x' (set_yield c false)); [reflexivity|reflexivity|].
  pose proof (gosubs_obey powf (runnable img) upcall (k_syms k) hidden calls (ci_upcalls img) (entry_of k) (session_tables _ _ _ _ _ SE) NS AP FO CL CO
    l0 x0 x0' _ m0 s0 C0 OX0 HS0 FI0 HD0 n) as SO.
  destruct (exec_sim powf (runnable img) upcall (k_syms k) hidden calls (gosubs powf (k_syms k) calls n s0 l0) (ci_upcalls img) (entry_of k)
    (session_tables _ _ _ _ _ SE) NS AP FO CL CO SO) as (_ & _ & _ & _ & _ & _ & XS).
  exact (XS s l s' g X FI x x' (set_yield c false) m C OX HS HD PC).
Qed.

(** Calls of nothing but what the host provides. *)

(** A whole input runs until the end marker. *)
Lemma input_ends powf {W} (upcall : N -> N -> nat -> image -> ctx -> heap -> W -> option (upcall_result W)) hidden
    srcs k img k' img' l c m s' :
  session up defs srcs k img -> compile_more k img (l, None) = (Compiled, k', img') ->
  (forall idx first pc c c' h w, c_regs c = c_regs c' -> c_fp c = c_fp c' ->
     upcall idx first pc (runnable img') c h w = upcall idx first pc (runnable img') c' h w) ->
  (forall xe, compiled_in up defs k' img' (start_of k) l xe ->
     outcome_of powf upcall (runnable img') (k_syms k') hidden xe c m s' SigNormal) ->
  exists c' m', runs powf upcall (runnable img') c m c' m' /\
    (gives_up powf upcall (runnable img') c' m' \/
     (same_frame c c' /\ texts_kept m m' /\ step powf (runnable img') c' m' = RStop SEof c' m' /\
      holding (k_syms k') hidden (ci_constants img') (k_syms k') None (set_yield c' false) m' s')).
Proof.
  intros SE H UP X.
  destruct (compile_more_synced _ _ _ _ _ (session_synced _ _ _ _ _ SE) H) as (_ & _ & _ & _ & _ & xe & _ & C & _).
  destruct (input_has srcs k img _ k' img' xe SE H C) as (HS & OE & LT & KS & FE).
  assert (CI : compiled_in up defs k' img' (start_of k) l xe).
  { eapply (compiled_now up defs srcs k img [] l []); [exact SE|rewrite app_nil_r; exact H|reflexivity|exact C]. }
  assert (SE' : session up defs (srcs ++ [(l, None)]) k' img') by (econstructor; eassumption).
  destruct (X _ CI) as (c' & m' & RU & [G|(FR & TK & PC & HD)]).
  { exists c', m'. auto. }
  cbn [place] in PC.
  assert (ST : step powf (runnable img') (set_yield c' false) m' = RStop SEof (set_yield c' false) m').
  { rewrite (step_at powf (runnable img') _ _ IEof); [reflexivity|reflexivity|]. cbn [set_yield c_pc]. rewrite PC. exact FE. }
  destruct (catch_up powf (runnable img') upcall UP (set_yield c' false) m' c'
     _ (session_meta _ _ _ SE') eq_refl eq_refl ST ltac:(discriminate)) as (d2 & R2 & Q2 & RQ).
  exists d2, m'. split; [eapply runs_trans; eassumption|]. right.
  split; [eapply yeq_frame; [exact Q2|exact FR]|]. split; [exact TK|]. split.
  - destruct (step powf (runnable img') d2 m') as [|s1 c1 h1|] eqn:E1; cbn [req] in RQ; try contradiction.
    destruct RQ as (-> & _ & _). destruct (step_stop _ _ _ _ _ _ _ E1 Logic.I) as [-> ->]. reflexivity.
  - rewrite (yeq_clear _ _ Q2 eq_refl). rewrite KS in *. exact HD.
Qed.
End Input.

(** A new compiler without global definitions starts at the first address. *)
Lemma new_starts up k : compiler_new up [] = COk k -> 0 = s_pc (start_of k).
Proof.
  intros H. unfold compiler_new, prepare_globals in H. cbn [register_globals bind] in H.
  apply bind_ok in H as ([g gs] & H & K). apply COk_inj in K. subst k. apply bind_ok in H as (g2 & A & H).
  apply COk_inj, pair_inj in H as [<- <-]. cbn [alloc_globals] in A. apply COk_inj in A. subst g2. reflexivity.
Qed.

(** A new machine holds no variables. *)
Lemma new_holds {W} L cs ls max size (w : W) : (N.of_nat max < 2 ^ 24)%N ->
  holding L (fun _ => None) cs ls None (set_yield (ctx_new max) false) (mkMem (heap_new size) w) (mkEnv (fun _ => None) w).
Proof.
  intros SM. constructor; cbn [m_heap m_world vals world ctx_new set_yield c_yield c_fp c_max c_stack length]; auto; try discriminate.
  - rewrite Nat.sub_0_r. clear -SM. change (c_fp (ctx_new max)) with 64. lia.
  - apply heap_ok_new.
  - intros v r p d (V & _). discriminate V.
  - intros v r p t dims at_ v' r' p' t' dims' at_' (V & _). discriminate V.
Qed.
