(** Running any statement, by induction on [exec]. *)
From Verif Require Import Base Bytecode_Model Bytecode_Spec Bytecode_Proofs Mem_Model Mem_Spec Mem_Proofs Num_Model
  Vm_Model Vm_Spec Vm_Proofs Ids_Model Ids_Spec Ids_Proofs Ast_Model Syms_Model Syms_Proofs Codegen_Model
  Codegen_Proofs Exprs_Model Exprs_Proofs Top_Model Top_Proofs Layout_Proofs Args_Spec Eval_Spec Eval_Proofs Call_Spec
  Run_Proofs Call_Proofs Exec_Spec Exec_Proofs Flow_Proofs Select_Proofs Simple_Proofs.

Section Stmts.
Variable powf : N -> N -> N.
Variable img : image.
Context {W : Type}.
Variable upcall : N -> N -> nat -> image -> ctx -> heap -> W -> option (upcall_result W).
Variable L : lsyms.
Variable hidden : N -> option hdatum.
Variable calls : ustr -> list given -> env W -> res vm_error (option cdatum) -> env W -> Prop.
(** What running from a label on does, until RETURN or an error. *)
Variable subs : ustr -> env W -> env W -> signal -> Prop.
Variable ups : list ustr.
Variable entry : point -> N -> Prop.
Hypothesis L_ok : tables_ok L.
Hypothesis L_ns : no_shadowing L.
Hypothesis L_ap : names_apart L.
Hypothesis functions_ok : functions_obey powf img upcall L hidden calls ups entry.
Hypothesis calls_local : forall k gs s r s' k', calls k gs s r s' -> is_shared L k' = false -> (r = Ok None -> forall t, ~ In (GRef k' t) gs) -> vals s k' = None -> vals s' k' = None.
Hypothesis commands_ok : commands_obey powf img upcall L hidden calls ups entry.
Notation cs := (i_constants img).
Notation ty := (declared L).
Notation callable := (get_callable (ls_global L)).
Notation state ls := (holding L hidden cs ls None).
Notation has := (has img L ups entry).
Notation go := (go powf img upcall).
Notation stuck := (stuck powf img upcall).
Notation gfails := (gfails powf img upcall).
Notation evals := (evals powf callable (is_variable L) calls).
Notation evals_as := (evals_as powf callable (is_variable L) calls).
Notation tests := (tests powf callable (is_variable L) calls).
Notation pre_test := (pre_test powf callable (is_variable L) calls).
Notation post_test := (post_test powf callable (is_variable L) calls).
Notation iterate := (iterate (is_shared L)).
Notation sim := (sim powf img upcall L hidden).
Notation simulates := (simulates powf img upcall L hidden ups entry).
Notation picks := (picks powf L calls).
Notation whole lemma := (lemma powf img W upcall L hidden calls ups entry L_ok L_ns L_ap functions_ok calls_local) (only parsing).
Implicit Types (h : mem W) (s : env W).

(** * Blocks *)

Lemma cons_sim st l s s1 s' g : simulates (compile_stmt st) s s1 SigNormal -> simulates (compile_stmts l) s1 s' g ->
  simulates (compile_stmts (st :: l)) s s' g.
Proof.
  intros A B x x' c h H O HS ST PC. cbn [compile_stmts] in H. apply bind_ok in H as (y & H1 & H2).
  pose proof (stmt_frame st _ _ H1 (ok_wf _ O)) as G1.
  assert (O1 : ok y) by (split; [eapply sgrows_swf; [exact G1|apply O]|eapply stmt_iframe; [exact H1|apply O|apply O]]).
  pose proof (stmts_bframe l _ _ H2 (ok_wf _ O1)) as G2.
  assert (HS1 : has x y) by (eapply has_inner; [exact HS|apply later_grows, G2|apply le_n]).
  assert (HS2 : has y x') by (eapply has_inner; [exact HS|apply later_refl|eapply sgrows_pc, G1]).
  destruct (sim_ended _ _ _ _ _ _ _ _ _ (A _ _ _ _ H1 O HS1 ST PC)) as [F|(c1 & h1 & G & P & ST1)]; [apply sim_heap, F|].
  eapply sim_after; [exact G|]. eapply B; eassumption.
Qed.
Lemma leave_sim st l s s' g : simulates (compile_stmt st) s s' g -> g <> SigNormal -> simulates (compile_stmts (st :: l)) s s' g.
Proof.
  intros A NG x x' c h H O HS ST PC. cbn [compile_stmts] in H. apply bind_ok in H as (y & H1 & H2).
  pose proof (stmt_frame st _ _ H1 (ok_wf _ O)) as G1.
  assert (O1 : ok y) by (split; [eapply sgrows_swf; [exact G1|apply O]|eapply stmt_iframe; [exact H1|apply O|apply O]]).
  pose proof (stmts_bframe l _ _ H2 (ok_wf _ O1)) as G2.
  assert (HS1 : has x y) by (eapply has_inner; [exact HS|apply later_grows, G2|apply le_n]).
  eapply sim_grows; [exact L_ns|eapply A; eassumption|exact NG|exact G2|apply HS].
Qed.

(** * Loops *)

Ltac unmark := intros x x' c h H0 O HS0 ST PC; assert (H := H0); rewrite compile_stmt_eq in H; apply bind_ok in H as (y & H & Q); apply COk_inj in Q;
  assert (HS : has x y) by (eapply has_inner; [exact HS0|rewrite <- Q; apply later_mark|apply le_n]).

Section While.
Variables (e : expr) (body : list stmt).
Hypothesis LO : in32 e.
Ltac parts := lazymatch goal with H : compile_while _ _ ?x = COk ?y, O : ok ?x, HS : has ?x ?y |- _ =>
  destruct (whole while_loop e _ _ _ (stmts_bframe body) (block_iframe body) H O HS LO) as (yb & z & CB & _ & _ & LP) end.
Lemma while_done_sim s s1 : tests s e (Ok false) s1 -> simulates (compile_stmt (StWhile e body)) s s1 SigNormal.
Proof.
  intros T. unmark. parts.
  rewrite <- Q. apply sim_mark. destruct (round_done _ _ _ _ _ _ _ _ _ _ _ _ _ LP c h s ST PC _ T) as [F|(c' & h' & G & P & S1)]; [apply sim_heap, F|].
  eapply sim_normal; [exact L_ns|exact G|exact P|exact S1|apply ext_refl|apply HS].
Qed.
Lemma while_fails_sim s x0 s1 : tests s e (Err x0) s1 -> simulates (compile_stmt (StWhile e body)) s s1 (SigError x0).
Proof.
  intros T. unmark. parts.
  rewrite <- Q. apply sim_mark. destruct (round_fails _ _ _ _ _ _ _ _ _ _ _ _ _ LP c h s ST PC x0 _ T) as [F|F]; [apply sim_heap, F|apply sim_error, F].
Qed.
Lemma while_leaves_sim s s1 s' g : tests s e (Ok true) s1 -> simulates (compile_stmts body) s1 s' g -> g <> SigNormal ->
  simulates (compile_stmt (StWhile e body)) s s' g.
Proof.
  intros T B NG. unmark. parts.
  rewrite <- Q. apply sim_mark. pose proof (round_body _ _ _ _ _ _ _ _ _ _ _ _ _ _ LP CB c h s ST PC _ s' g T B) as S0.
  eapply sim_move; [exact L_ns|exact S0|exact NG|apply LP|apply HS| | |apply LP]; apply top_kept_eq, LP.
Qed.
Lemma while_again_sim s s1 s2 s' g : tests s e (Ok true) s1 -> simulates (compile_stmts body) s1 s2 SigNormal ->
  simulates (compile_stmt (StWhile e body)) (iterate s s2) s' g -> simulates (compile_stmt (StWhile e body)) s s' g.
Proof.
  intros T B N1. unmark. parts.
  destruct (round_again powf img upcall L hidden ups entry L_ns _ _ _ _ _ _ _ LP CB ltac:(apply HS) c h s ST PC s1 s2 s2 T B ltac:(split; reflexivity))
    as [F|(c1 & h1 & G & P & S1)]; [apply sim_heap, F|].
  eapply sim_after; [exact G|]. eapply N1; eassumption.
Qed.
End While.

Section Do.
Variables (dg : do_guard) (body : list stmt).
Hypothesis LO : guard_ok dg.
Ltac parts := lazymatch goal with H : compile_do _ _ ?x = COk ?y, O : ok ?x, HS : has ?x ?y |- _ =>
  destruct (whole do_parts dg _ _ _ (stmts_bframe body) (block_iframe body) H O HS LO)
    as (yb & z & w & CB & LP & PW & SW & FW & EW & exits & rest & DZ & JE) end.
Lemma do_done_sim s s1 : pre_test s dg (Ok false) s1 -> simulates (compile_stmt (StDo dg body)) s s1 SigNormal.
Proof.
  intros T. unmark. parts. rewrite <- Q. apply sim_mark.
  destruct (round_done _ _ _ _ _ _ _ _ _ _ _ _ _ LP c h s ST PC _ T) as [F|(c' & h' & G & P & S1)]; [apply sim_heap, F|].
  eapply sim_normal; [exact L_ns|exact G|rewrite P, PW; reflexivity|exact S1|rewrite SW; apply ext_refl|apply HS].
Qed.
Lemma do_fails_sim s x0 s1 : pre_test s dg (Err x0) s1 -> simulates (compile_stmt (StDo dg body)) s s1 (SigError x0).
Proof.
  intros T. unmark. parts. rewrite <- Q. apply sim_mark.
  destruct (round_fails _ _ _ _ _ _ _ _ _ _ _ _ _ LP c h s ST PC x0 _ T) as [F|F]; [apply sim_heap, F|apply sim_error, F].
Qed.
Lemma do_exits_sim s s1 s' : pre_test s dg (Ok true) s1 -> simulates (compile_stmts body) s1 s' SigExitDo ->
  simulates (compile_stmt (StDo dg body)) s s' SigNormal.
Proof.
  intros T B. unmark. parts. rewrite <- Q. apply sim_mark.
  destruct (round_body _ _ _ _ _ _ _ _ _ _ _ _ _ _ LP CB c h s ST PC _ s' _ T B) as [F|(c1 & h1 & G & PL & S1)]; [apply sim_heap, F|].
  cbn [place] in PL. destruct PL as (top & rest' & DT & IN). rewrite DZ in DT. injection DT as <- <-.
  destruct (JE _ IN) as (t & FT & TT).
  destruct (jumped powf img upcall L hidden L_ns (snd z) (snd y) c1 h1 s' t (s_pc y) S1 FT TT) as (c2 & h2 & G2 & P2 & ST2); [rewrite SW; apply LP|apply HS|].
  eapply sim_normal; [exact L_ns|eapply go_trans; eassumption|exact P2|exact ST2|apply ext_refl|apply HS].
Qed.
Lemma do_leaves_sim s s1 s' g : pre_test s dg (Ok true) s1 -> simulates (compile_stmts body) s1 s' g -> g <> SigNormal -> g <> SigExitDo ->
  simulates (compile_stmt (StDo dg body)) s s' g.
Proof.
  intros T B NG ND. unmark. parts. rewrite <- Q. apply sim_mark.
  pose proof (round_body _ _ _ _ _ _ _ _ _ _ _ _ _ _ LP CB c h s ST PC _ s' g T B) as S0.
  eapply sim_move'; [exact L_ns|exact S0|exact NG|rewrite SW; apply LP|apply HS|contradiction| |].
  - intros _. apply top_kept_eq. rewrite FW. apply LP.
  - eapply exits_kept_trans; [apply LP|exact EW].
Qed.
Lemma do_stops_sim s s1 s2 s' : pre_test s dg (Ok true) s1 -> simulates (compile_stmts body) s1 s2 SigNormal ->
  post_test s2 dg (Ok false) s' -> simulates (compile_stmt (StDo dg body)) s s' SigNormal.
Proof.
  intros T B T2. unmark. parts. rewrite <- Q. apply sim_mark.
  destruct (round_leave _ _ _ _ _ _ _ _ _ _ _ _ _ _ LP CB c h s ST PC _ s2 _ _ T B T2) as [F|(c' & h' & G & P & S1)]; [apply sim_heap, F|].
  eapply sim_normal; [exact L_ns|exact G|rewrite P, PW; reflexivity|exact S1|rewrite SW; apply ext_refl|apply HS].
Qed.
Lemma do_fails_after_sim s s1 s2 x0 s' : pre_test s dg (Ok true) s1 -> simulates (compile_stmts body) s1 s2 SigNormal ->
  post_test s2 dg (Err x0) s' -> simulates (compile_stmt (StDo dg body)) s s' (SigError x0).
Proof.
  intros T B T2. unmark. parts. rewrite <- Q. apply sim_mark.
  destruct (round_leave _ _ _ _ _ _ _ _ _ _ _ _ _ _ LP CB c h s ST PC _ s2 _ _ T B T2) as [F|F]; [apply sim_heap, F|apply sim_error, F].
Qed.
Lemma do_again_sim s s1 s2 s3 s' g : pre_test s dg (Ok true) s1 -> simulates (compile_stmts body) s1 s2 SigNormal ->
  post_test s2 dg (Ok true) s3 ->
  simulates (compile_stmt (StDo dg body)) (iterate s s3) s' g -> simulates (compile_stmt (StDo dg body)) s s' g.
Proof.
  intros T B T2 N1. unmark. parts.
  destruct (round_again powf img upcall L hidden ups entry L_ns _ _ _ _ _ _ _ LP CB ltac:(rewrite <- SW; apply HS) c h s ST PC s1 s2 s3 T B T2)
    as [F|(c1 & h1 & G & P & S1)]; [apply sim_heap, F|].
  eapply sim_after; [exact G|]. eapply N1; eassumption.
Qed.
End Do.

Lemma exit_do_sim p s : simulates (compile_stmt (StExitDo p)) s s SigExitDo.
Proof.
  unmark. rewrite <- Q. apply sim_mark. unfold compile_exit_do in H. destruct (t_do (fst x)) as [|top rest] eqn:T; [discriminate H|].
  apply COk_inj in H. right. exists c, h. split; [apply go_refl, ST|]. subst y. cbn [place fst snd]. split; [|exact ST].
  eexists _, rest. split; [reflexivity|]. rewrite map_app. apply in_app_iff. right. left. symmetry. exact PC.
Qed.
Lemma exit_for_sim p s : simulates (compile_stmt (StExitFor p)) s s SigExitFor.
Proof.
  unmark. rewrite <- Q. apply sim_mark. unfold compile_exit_for in H. destruct (t_for (fst x)) as [|top rest] eqn:T; [discriminate H|].
  apply COk_inj in H. right. exists c, h. split; [apply go_refl, ST|]. subst y. cbn [place fst snd]. split; [|exact ST].
  eexists _, rest. split; [reflexivity|]. rewrite map_app. apply in_app_iff. right. left. symmetry. exact PC.
Qed.

Section For.
Variables (end_ next : expr) (body : list stmt) (v : varref) (ipos : linecol) (t : etype).
Notation k := (ascii_upper (vr_name v)).
Hypothesis LE : in32 end_.
Hypothesis LN : in32 next.
Hypothesis CA : computed_apart L v next.
Hypothesis TY : ty k = Some t.
Definition rounds s s' (g : signal) : Prop := forall x x' c h,
  for_tail v ipos end_ next (compile_stmts body) x = COk x' -> ok x -> has x x' -> state (snd x) c h s -> c_pc c = s_pc x -> sim x' c h s' g.

Ltac parts := intros x x' c h H O HS ST PC;
  destruct (whole for_parts v ipos end_ next _ _ _ (stmts_bframe body) (block_iframe body) H O HS LE)
    as (yb & z & w & CB & OB & HB & X1 & X2 & TEST & AS & OZ & HZ & X3 & (tb & FB & TB) & SW & DW & EW & exits & rest & FZ & JE).

Lemma rounds_done s s1 : tests s end_ (Ok false) s1 -> rounds s s1 SigNormal.
Proof.
  intros T. parts. destruct (TEST c h s _ _ ST PC T) as [F|(c1 & h1 & G & P & S1)]; [apply sim_heap, F|].
  eapply sim_normal; [exact L_ns|exact G|exact P|exact S1|apply ext_refl|apply HS].
Qed.
Lemma rounds_fails s e s1 : tests s end_ (Err e) s1 -> rounds s s1 (SigError e).
Proof. intros T. parts. destruct (TEST c h s _ _ ST PC T) as [F|F]; [apply sim_heap, F|apply sim_error, F]. Qed.

Lemma rounds_exits s s1 s' : tests s end_ (Ok true) s1 -> simulates (compile_stmts body) s1 s' SigExitFor -> rounds s s' SigNormal.
Proof.
  intros T B. parts. destruct (TEST c h s _ _ ST PC T) as [F|(c0 & h0 & G0 & P0 & S0)]; [apply sim_heap, F|].
  eapply sim_after; [exact G0|].
  destruct (B _ _ _ _ CB OB HB S0 P0) as [F|(c1 & h1 & G & PL & S1)]; [apply sim_heap, F|].
  cbn [place] in PL. destruct PL as (top & rest' & DT & IN). rewrite FZ in DT. injection DT as <- <-.
  destruct (JE _ IN) as (tj & FT & TT).
  destruct (jumped powf img upcall L hidden L_ns (snd z) (snd x') c1 h1 s' tj (s_pc x') S1 FT TT) as (c2 & h2 & G2 & P2 & ST2); [rewrite SW; exact X3|apply HS|].
  eapply sim_normal; [exact L_ns|eapply go_trans; eassumption|exact P2|exact ST2|apply ext_refl|apply HS].
Qed.
Lemma rounds_leaves s s1 s' g : tests s end_ (Ok true) s1 -> simulates (compile_stmts body) s1 s' g -> g <> SigNormal -> g <> SigExitFor ->
  rounds s s' g.
Proof.
  intros T B NG NF. parts. destruct (TEST c h s _ _ ST PC T) as [F|(c0 & h0 & G0 & P0 & S0)]; [apply sim_heap, F|].
  eapply sim_after; [exact G0|]. pose proof (B _ _ _ _ CB OB HB S0 P0) as S1.
  eapply sim_move'; [exact L_ns|exact S1|exact NG|rewrite SW; exact X3|apply HS| |contradiction|exact EW].
  intros _. apply top_kept_eq. exact DW.
Qed.

Lemma rounds_step s s1 s2 r s3 : tests s end_ (Ok true) s1 -> simulates (compile_stmts body) s1 s2 SigNormal ->
  evals_as s2 (Some t) next r s3 ->
  forall x x' c h,
  for_tail v ipos end_ next (compile_stmts body) x = COk x' -> ok x -> has x x' -> state (snd x) c h s -> c_pc c = s_pc x ->
  stuck c h \/
  match r with
  | Ok d => exists c' h', go c h c' h' /\ c_pc c' = s_pc x /\ state (snd x) c' h' (iterate s (store s3 k (Scalar d)))
  | Err e => gfails c h e (world s3)
  end.
Proof.
  intros T B EV. parts. destruct (TEST c h s _ _ ST PC T) as [F|(c0 & h0 & G0 & P0 & S0)]; [left; exact F|].
  destruct (sim_ended _ _ _ _ _ _ _ _ _ (B _ _ _ _ CB OB HB S0 P0)) as [F|(c1 & h1 & G1 & P1 & S1)]; [left; eapply stuck_go; eassumption|].
  assert (G01 : go c h c1 h1) by (eapply go_trans; eassumption).
  destruct (whole assign_sim v ipos next z w c1 h1 s2 t r s3 AS OZ HZ LN CA S1 P1 TY EV) as [F|A]; [left; eapply stuck_go; eassumption|].
  right. destruct r as [d|e]; cbn [assigned] in A; [|eapply gfails_go; eassumption].
  destruct A as (c2 & h2 & G2 & P2 & S2).
  assert (G02 : go c h c2 h2) by (eapply go_trans; eassumption).
  exists (set_pc c2 (N.to_nat tb)), h2. split; [|split; [exact TB|]].
  - eapply go_trans; [exact G02|]. apply go_jump; [apply S2|apply S2|]. rewrite P2. exact FB.
  - apply state_pc. eapply state_back with (b := snd w); [exact L_ns| |rewrite <- SW; apply HS|exact S2|exact ST].
    eapply ext_trans; [exact X1|]. eapply ext_trans; eassumption.
Qed.
Lemma rounds_next_fails s s1 s2 e s' : tests s end_ (Ok true) s1 -> simulates (compile_stmts body) s1 s2 SigNormal ->
  evals_as s2 (Some t) next (Err e) s' -> rounds s s' (SigError e).
Proof.
  intros T B EV x x' c h H O HS ST PC.
  destruct (rounds_step _ _ _ _ _ T B EV _ _ _ _ H O HS ST PC) as [F|F]; [apply sim_heap, F|apply sim_error, F].
Qed.
Lemma rounds_again s s1 s2 d s3 s' g : tests s end_ (Ok true) s1 -> simulates (compile_stmts body) s1 s2 SigNormal ->
  evals_as s2 (Some t) next (Ok d) s3 -> rounds (iterate s (store s3 k (Scalar d))) s' g -> rounds s s' g.
Proof.
  intros T B EV N1 x x' c h H O HS ST PC.
  destruct (rounds_step _ _ _ _ _ T B EV _ _ _ _ H O HS ST PC) as [F|(c1 & h1 & G & P & S1)]; [apply sim_heap, F|].
  eapply sim_after; [exact G|]. eapply N1; eassumption.
Qed.
End For.

Lemma for_tail_frame iter ipos end_ next body x x' : bframe body -> iframe body ->
  for_tail iter ipos end_ next body x = COk x' -> ok x -> sgrows (s_pc x) x x'.
Proof.
  clear. intros B F H O. destruct (for_tail_body _ _ _ _ _ _ _ B F H O) as (r & y & z & w & t1 & t2 & _ & _ & _ & _ & _ & K).
  cbv zeta in K. destruct K as (K1 & O1 & _ & _ & _ & _ & P1 & _ & _ & G1 & _ & _ & G).
  unfold for_end in K1. set (v := s_patch (s_pc y) _ _) in *.
  set (x2 := s_emit INop (start_pos end_) y) in *.
  destruct (for_pop (s_pc y) (for_mark (s_pc x) x2) v G) as (exits & Q & I & G6). rewrite Q in K1.
  destruct (patch_jumps_frame _ _ _ _ _ _ I K1) as [G7 _].
  assert (E2 : Top_Proofs.ext (s_pc x) x x2) by (apply ext_emit; eapply ext_step; [apply ext_start, O|exact G1]).
  assert (E3 : Top_Proofs.ext (s_pc x) x (for_mark (s_pc x) x2)) by (apply ext_mark; [exact E2|apply le_n]).
  eapply sgrows_trans; [apply E3|]. eapply sgrows_trans; (eapply sgrows_weaken; [eassumption|lia]).
Qed.

(** The start of a FOR loop. *)
Lemma iterator_sim v p dbl x y c h s : for_iterator v p dbl x = COk y -> ok x -> ext (snd y) L -> state (snd x) c h s ->
  ok y /\ s_pc y = s_pc x /\ state (snd y) c h s.
Proof.
  intros H O X ST. destruct (for_iterator_frame _ _ _ _ _ H (ok_wf _ O)) as [G F].
  assert (P : s_pc y = s_pc x) by (unfold s_pc, s_gen; rewrite F; reflexivity).
  split; [|split; [exact P|]].
  - split; [eapply sgrows_swf; [exact G|apply O]|]. unfold inv, pend, code_at, s_gen. rewrite F. apply O.
  - eapply state_ext; [exact L_ns|apply ext_grows, G|exact X|exact ST].
Qed.

Lemma for_start v p dbl start end_ next body x y c h s t r s1 :
  compile_for v p dbl start end_ next (compile_stmts body) x = COk y -> ok x -> has x y -> in32 start -> computed_apart L v start ->
  ty (ascii_upper (vr_name v)) = Some t -> evals_as s (Some t) start r s1 -> state (snd x) c h s -> c_pc c = s_pc x ->
  stuck c h \/
  match r with
  | Ok d => exists x1 c' h', for_tail v p end_ next (compile_stmts body) x1 = COk y /\ ok x1 /\ has x1 y /\ go c h c' h' /\
      c_pc c' = s_pc x1 /\ state (snd x1) c' h' (store s1 (ascii_upper (vr_name v)) (Scalar d))
  | Err e => gfails c h e (world s1)
  end.
Proof.
  intros H O HS LO CA TY EV ST PC. rewrite compile_for_eq in H. apply bind_ok in H as (x0 & H0 & H). apply bind_ok in H as (x1 & H1 & H).
  destruct (for_iterator_frame _ _ _ _ _ H0 (ok_wf _ O)) as [G0 _].
  assert (W0 : swf x0) by (eapply sgrows_swf; [exact G0|apply O]).
  destruct (assignment_frame _ _ _ _ _ H1 W0) as [G1 _].
  assert (W1 : swf x1) by (eapply sgrows_swf; [exact G1|apply W0]).
  assert (O0 : ok x0).
  { split; [exact W0|]. destruct (for_iterator_frame _ _ _ _ _ H0 (ok_wf _ O)) as [_ F]. unfold inv, pend, code_at, s_gen. rewrite F. apply O. }
  assert (O1 : ok x1) by (apply (ok_assign _ _ _ _ _ H1 O0)).
  assert (GT : sgrows (s_pc x1) x1 y) by (eapply for_tail_frame; [apply stmts_bframe|apply block_iframe|exact H|exact O1]).
  assert (L1 : later x1 y) by (apply later_grows, GT).
  assert (L0 : later x0 x1) by (apply later_grows, G1).
  destruct (iterator_sim _ _ _ _ _ c h s H0 O) as (_ & P0 & S0); [eapply ext_trans; [apply (la_syms _ _ L0)|]; eapply ext_trans; [apply (la_syms _ _ L1)|apply HS]|exact ST|].
  assert (HS1 : has x0 x1) by (eapply has_inner; [exact HS|exact L1|rewrite P0; apply le_n]).
  destruct (whole assign_sim v p start x0 x1 c h s t r s1 H1 O0 HS1 LO CA S0) as [F|A]; [congruence|exact TY|exact EV|left; exact F|right].
  destruct r as [d|e]; cbn [assigned] in A; [|exact A]. destruct A as (c1 & h1 & G & P & S1).
  exists x1, c1, h1. split; [exact H|]. split; [exact O1|]. split; [|auto].
  eapply has_inner; [exact HS|apply later_refl|]. pose proof (sgrows_pc _ _ _ G1) as K. clear -K P0. lia.
Qed.
Lemma for_sim v p dbl start end_ next body t d s s1 s' g : in32 start -> computed_apart L v start -> ty (ascii_upper (vr_name v)) = Some t ->
  evals_as s (Some t) start (Ok d) s1 ->
  rounds end_ next body v p (store s1 (ascii_upper (vr_name v)) (Scalar d)) s' g ->
  simulates (compile_stmt (StFor v p dbl start end_ next body)) s s' g.
Proof.
  intros LO CA TY EV R. unmark. rewrite <- Q. apply sim_mark.
  destruct (for_start _ _ _ _ _ _ _ _ _ c h s t _ _ H O HS LO CA TY EV ST PC) as [F|(x1 & c1 & h1 & H1 & O1 & HS1 & G & P & S1)]; [apply sim_heap, F|].
  eapply sim_after; [exact G|]. eapply R; eassumption.
Qed.
Lemma for_fails_sim v p dbl start end_ next body t e s s1 : in32 start -> computed_apart L v start -> ty (ascii_upper (vr_name v)) = Some t ->
  evals_as s (Some t) start (Err e) s1 -> simulates (compile_stmt (StFor v p dbl start end_ next body)) s s1 (SigError e).
Proof.
  intros LO CA TY EV. unmark. rewrite <- Q. apply sim_mark.
  destruct (for_start _ _ _ _ _ _ _ _ _ c h s t _ _ H O HS LO CA TY EV ST PC) as [F|F]; [apply sim_heap, F|apply sim_error, F].
Qed.

(** * Branches *)

Notation blocks bs := (map (fun b => (fst b, compile_stmts (snd b))) bs).

Lemma blocks_framed {A} (bs : list (A * list stmt)) : Forall (fun p => bframe (snd p) /\ iframe (snd p)) (blocks bs).
Proof.
  clear. apply Forall_forall. intros p I. apply in_map_iff in I as (q & <- & _). split; [apply stmts_bframe|apply block_iframe].
Qed.

Definition branching (bs : list (expr * list stmt)) s s' (g : signal) : Prop :=
  forall ends x ends' x' X c h, compile_branches (blocks bs) ends x = COk (ends', x') -> ok x -> marks x ends -> nops x ends ->
  filled x' X -> has x X -> (forall a, In a ends' -> exists t, fetched img a (IJump t) /\ N.to_nat t = s_pc X) ->
  state (snd x) c h s -> c_pc c = s_pc x -> sim X c h s' g.

Lemma no_branch_sim s : branching [] s s SigNormal.
Proof.
  intros ends x ends' x' X c h H O MA NO FI HS JU ST PC. cbn [map compile_branches] in H. apply COk_inj in H. apply pair_inj in H as [_ <-].
  eapply sim_normal; [exact L_ns|apply go_refl, ST|rewrite (fi_pc _ _ FI); exact PC|exact ST| |apply HS].
  rewrite (fi_syms _ _ FI). apply ext_refl.
Qed.

Section Branch.
Variables (e : expr) (body : list stmt) (bs : list (expr * list stmt)).
Hypothesis LO : in32 e.
Ltac parts := intros ends x ends' x' X c h H O MA NO FI HS JU ST PC; cbn [map fst snd] in H;
  destruct (whole branch_parts e _ _ ends x ends' x' X (stmts_bframe body) (block_iframe body) (blocks_framed bs) H O MA NO FI HS JU LO)
    as (yb & z & ends1 & x1 & CB & OB & HB & TEST & LEAVE & SG & CR & O1 & M1 & N1 & H1).
Lemma branch_sim s s1 s' g : tests s e (Ok true) s1 -> simulates (compile_stmts body) s1 s' g -> branching ((e, body) :: bs) s s' g.
Proof.
  intros T B. parts. destruct (TEST c h s _ _ ST PC T) as [F|(c1 & h1 & G & P & S1)]; [apply sim_heap, F|].
  eapply sim_after; [exact G|]. pose proof (B _ _ _ _ CB OB HB S1 P) as S2.
  assert (D : g = SigNormal \/ g <> SigNormal) by (destruct g; auto; right; discriminate). destruct D as [->|NG].
  - destruct (sim_ended _ _ _ _ _ _ _ _ _ S2) as [F|(c2 & h2 & G2 & P2 & S3)]; [apply sim_heap, F|].
    destruct (LEAVE _ _ _ S3 P2) as (c3 & h3 & G3 & P3 & S4).
    eapply sim_normal; [exact L_ns|eapply go_trans; eassumption|exact P3|exact S4|apply ext_refl|apply HS].
  - eapply sim_move; [exact L_ns|exact S2|exact NG| |apply HS| | |].
    + rewrite (fi_syms _ _ FI). apply ext_grows, SG.
    + rewrite (fi_do _ _ FI). eapply top_kept_grows. apply SG.
    + rewrite (fi_for _ _ FI). eapply top_kept_grows. apply SG.
    + eapply exits_kept_trans; [eapply exits_kept_grows, SG|apply exits_kept_later; apply FI].
Qed.
Lemma other_branch_sim s s1 s' g : tests s e (Ok false) s1 -> branching bs s1 s' g -> branching ((e, body) :: bs) s s' g.
Proof.
  intros T B. parts. destruct (TEST c h s _ _ ST PC T) as [F|(c1 & h1 & G & P & S1)]; [apply sim_heap, F|].
  eapply sim_after; [exact G|]. exact (B _ _ _ _ _ _ _ CR O1 M1 N1 FI H1 JU S1 P).
Qed.
Lemma branch_fails_sim s er s1 : tests s e (Err er) s1 -> branching ((e, body) :: bs) s s1 (SigError er).
Proof. intros T. parts. destruct (TEST c h s _ _ ST PC T) as [F|F]; [apply sim_heap, F|apply sim_error, F]. Qed.
End Branch.

Lemma if_sim bs s s' g : branching bs s s' g -> simulates (compile_stmt (StIf bs)) s s' g.
Proof.
  intros B. unmark. rewrite <- Q. apply sim_mark.
  destruct (if_filled img L ups entry _ _ _ (blocks_framed bs) H O HS) as (ends & x1 & CB & FI & JU).
  eapply B; [exact CB|exact O| | |exact FI|exact HS|exact JU|exact ST|exact PC].
  - intros a [].
  - intros a [].
Qed.

(** * Cases *)

Definition choosing (d : cdatum) (cases : list (list case_guard * list stmt)) s s' (g : signal) : Prop :=
  exists ch s2, picks d s (blocks cases) ch s2 /\
  match ch with
  | NoCase => s' = s2 /\ g = SigNormal
  | CaseFails e => s' = s2 /\ g = SigError e
  | Case k => forall gs b, nth_error (blocks cases) k = Some (gs, b) -> simulates b s2 s' g
  end.

Lemma select_sim e cases p d s s1 s' g : in32 e -> Forall case_literals cases -> evals s e (Ok d) s1 ->
  choosing d cases s1 s' g -> simulates (compile_stmt (StSelect e cases p)) s s' g.
Proof.
  intros LO LC EV (ch & s2 & PK & B). unmark. rewrite <- Q. apply sim_mark.
  assert (LC' : Forall case_literals (blocks cases)).
  { apply Forall_forall. intros q I. apply in_map_iff in I as (q0 & <- & I). rewrite Forall_forall in LC. exact (LC q0 I). }
  destruct (proj2 (whole select_parts e _ p x y (blocks_framed cases) H O HS LO LC') c h s ST PC) as [_ K].
  destruct (K d s1 ch s2 EV PK) as [F|K']; [apply sim_heap, F|]. destruct ch as [|k|er].
  - destruct B as [-> ->]. destruct K' as (c1 & h1 & G & P & S1). eapply sim_normal; [exact L_ns|exact G|exact P|exact S1|apply ext_refl|apply HS].
  - destruct K' as (gs & b & xb & zb & c1 & h1 & NT & CB & OB & HB & G & P & S1 & LEAVE & X & TD & TF & TE).
    pose proof (B _ _ NT _ _ _ _ CB OB HB S1 P) as S2. eapply sim_after; [exact G|].
    assert (D : g = SigNormal \/ g <> SigNormal) by (destruct g; auto; right; discriminate). destruct D as [->|NG].
    + destruct (sim_ended _ _ _ _ _ _ _ _ _ S2) as [F|(c2 & h2 & G2 & P2 & S3)]; [apply sim_heap, F|].
      destruct (LEAVE _ _ _ S3 P2) as (c3 & h3 & G3 & P3 & S4).
      eapply sim_normal; [exact L_ns|eapply go_trans; eassumption|exact P3|exact S4|apply ext_refl|apply HS].
    + eapply sim_move; [exact L_ns|exact S2|exact NG|exact X|apply HS|exact TD|exact TF|exact TE].
  - destruct B as [-> ->]. apply sim_error, K'.
Qed.
Lemma select_fails_sim e cases p s er s1 : in32 e -> Forall case_literals cases -> evals s e (Err er) s1 ->
  simulates (compile_stmt (StSelect e cases p)) s s1 (SigError er).
Proof.
  intros LO LC EV. unmark. rewrite <- Q. apply sim_mark.
  assert (LC' : Forall case_literals (blocks cases)).
  { apply Forall_forall. intros q I. apply in_map_iff in I as (q0 & <- & I). rewrite Forall_forall in LC. exact (LC q0 I). }
  destruct (proj2 (whole select_parts e _ p x y (blocks_framed cases) H O HS LO LC') c h s ST PC) as [K _].
  destruct (K er s1 EV) as [F|F]; [apply sim_heap, F|apply sim_error, F].
Qed.

(** * Places of variables *)

Notation placed := (placed L).

Lemma lookup_placed l v r p : ext l L -> get_local_or_global l v = Ok (r, p) -> placed l (symkey (vr_name v)).
Proof.
  intros X G. unfold Exec_Proofs.placed, is_shared, contains_global. unfold get_local_or_global, get_global, get_var in G.
  destruct (id_get ustr_eqb (ls_locals l) (symkey (vr_name v))) as [[p1 i1]|]; [right; discriminate|left].
  destruct (id_get ustr_eqb (gs_vars (ls_global l)) (symkey (vr_name v))) as [[p1 i1]|] eqn:Q; [|discriminate G].
  destruct X as (_ & [n E] & _). rewrite E, (get_ext _ _ _ _ Q). reflexivity.
Qed.
Lemma assignment_placed v p e x x' : s_assignment v p e x = COk x' -> swf x -> ext (snd x') L -> placed (snd x') (symkey (vr_name v)).
Proof.
  intros H O XL. pose proof (ext_grows _ _ (sg_syms _ _ _ (proj1 (assignment_frame _ _ _ _ _ H O)))) as X.
  unfold s_assignment, compile_assignment in H. cbn [fst snd] in H. apply bind_ok in H as ([g1 l1] & H & KE). apply COk_inj in KE. subst x'. cbn [snd] in *.
  apply bind_ok in H as ([[[l0 reg] ot] was] & H0 & H).
  destruct (get_local_or_global (snd x) v) as [[r0 [t0 n0|t0]]|[z|z|z|z wsc]] eqn:G; try discriminate H0.
  - eapply placed_ext; [exact X|]. eapply lookup_placed; [eapply ext_trans; eassumption|exact G].
  - destruct (get_callable _ _) in H0; [discriminate H0|]. destruct (put_local (snd x) _ _) as [[l2 [r2|er2]]|] eqn:PL; try discriminate H0.
    apply COk_inj in H0. injection H0 as -> -> <- <-. destruct (put_local_grows _ _ _ _ _ PL) as (_ & NK & i & _ & LL & _ & _).
    assert (P0 : id_get ustr_eqb (ls_locals l0) (symkey (vr_name v)) <> None) by (rewrite LL, (get_app_none _ _ _ NK); discriminate).
    right. destruct (vr_type v) as [t|].
    + cbn [andb] in H. unfold map_error in H. destruct (bind _ _) as [[g2 l2]| |] eqn:B in H; try discriminate H. apply COk_inj, pair_inj in H as [_ <-].
      apply bind_ok in B as (st2 & _ & B). apply COk_inj, pair_inj in B as [_ <-]. exact P0.
    + apply bind_ok in H as ([st2 te] & _ & H). unfold fixup_local_type in H. cbn [thaw ls_locals] in H. rewrite LL in H, P0.
      rewrite (get_app_none _ _ _ NK), (set_new _ _ _ _ _ NK) in H. apply COk_inj, pair_inj in H as [_ <-]. cbn [ls_locals].
      rewrite (get_app_none _ _ _ NK). discriminate.
Qed.
Lemma stmts_in l st : In st l -> forall x x', compile_stmts l x = COk x' -> ok x -> has x x' ->
  exists y y', compile_stmt st y = COk y' /\ ok y /\ has y y' /\ ext (snd y') (snd x').
Proof.
  induction l as [|st0 l IH]; intros J x x' H O HS; [destruct J|]; cbn [compile_stmts] in H; apply bind_ok in H as (y & H1 & H2);
    pose proof (stmt_frame st0 _ _ H1 (ok_wf _ O)) as G1;
    (assert (O1 : ok y) by (split; [eapply sgrows_swf; [exact G1|apply O]|eapply stmt_iframe; [exact H1|apply O|apply O]]));
    pose proof (stmts_bframe l _ _ H2 (ok_wf _ O1)) as G2; destruct J as [J|J].
  - subst st0. exists x, y. split; [exact H1|]. split; [exact O|]. split; [eapply has_inner; [exact HS|apply later_grows, G2|apply le_n]|apply ext_grows, G2].
  - apply (IH J y x' H2 O1). eapply has_inner; [exact HS|apply later_refl|eapply sgrows_pc, G1].
Qed.
Lemma for_split v p dbl start end_ next body x y : compile_for v p dbl start end_ next (compile_stmts body) x = COk y -> ok x -> has x y ->
  exists x1, for_tail v p end_ next (compile_stmts body) x1 = COk y /\ ok x1 /\ has x1 y /\ ext (snd x1) (snd y) /\ placed (snd x1) (symkey (vr_name v)).
Proof.
  intros H O HS. rewrite compile_for_eq in H. apply bind_ok in H as (x0 & H0 & H). apply bind_ok in H as (x1 & H1 & H).
  destruct (for_iterator_frame _ _ _ _ _ H0 (ok_wf _ O)) as [G0 F].
  assert (W0 : swf x0) by (eapply sgrows_swf; [exact G0|apply O]).
  assert (O0 : ok x0) by (split; [exact W0|]; unfold inv, pend, code_at, s_gen; rewrite F; apply O).
  destruct (assignment_frame _ _ _ _ _ H1 W0) as [G1 _].
  assert (O1 : ok x1) by (apply (ok_assign _ _ _ _ _ H1 O0)).
  assert (GT : sgrows (s_pc x1) x1 y) by (eapply for_tail_frame; [apply stmts_bframe|apply block_iframe|exact H|exact O1]).
  exists x1. split; [exact H|]. split; [exact O1|]. split; [|split; [apply ext_grows, GT|]].
  - eapply has_inner; [exact HS|apply later_refl|]. pose proof (sgrows_pc _ _ _ G1) as K. pose proof (sgrows_pc _ _ _ G0) as K0. clear -K K0. lia.
  - eapply assignment_placed; [exact H1|exact W0|]. eapply ext_trans; [apply ext_grows, GT|apply HS].
Qed.
Lemma branch_in bs e body : In (e, body) bs -> Forall (fun b => in32 (fst b)) bs -> forall ends x ends' x' X, compile_branches (blocks bs) ends x = COk (ends', x') ->
  ok x -> marks x ends -> nops x ends -> filled x' X -> has x X -> (forall a, In a ends' -> exists t, fetched img a (IJump t) /\ N.to_nat t = s_pc X) ->
  exists y y', compile_stmts body y = COk y' /\ ok y /\ has y y' /\ ext (snd y') (snd X).
Proof.
  induction bs as [|[e0 b0] bs IH]; intros J LO ends x ends' x' X H O MA NO FI HS JU; [destruct J|]. cbn [map fst snd] in H. apply Forall_cons_iff in LO as [LE LO].
  destruct (whole branch_parts e0 _ _ ends x ends' x' X (stmts_bframe b0) (block_iframe b0) (blocks_framed bs) H O MA NO FI HS JU LE)
    as (yb & z & ends1 & x1 & CB & OB & HB & _ & _ & SG & CR & O1 & M1 & N1 & H1).
  destruct J as [J|J]; [|eapply (IH J LO); eassumption]. injection J as <- <-. exists yb, z. split; [exact CB|]. split; [exact OB|]. split; [exact HB|].
  rewrite (fi_syms _ _ FI). apply ext_grows, SG.
Qed.

(** * All of it *)

Scheme exec_min := Minimality for exec Sort Prop
  with exec_for_min := Minimality for exec_for Sort Prop
  with exec_branches_min := Minimality for exec_branches Sort Prop
  with exec_cases_min := Minimality for exec_cases Sort Prop
  with exec_list_min := Minimality for exec_list Sort Prop
  with exec_jumps_min := Minimality for exec_jumps Sort Prop
  with execs_min := Minimality for execs Sort Prop.
Combined Scheme exec_all_min from exec_min, exec_for_min, exec_branches_min, exec_cases_min, exec_list_min, exec_jumps_min, execs_min.

Definition body_fine (l : list stmt) : Prop := Forall (stmt_fine L) l.

Lemma fine_in32 st e o : stmt_fine L st -> occurs e o st -> in32 e.
Proof. clear. intros F OC. exact (proj1 (F _ _ OC)). Qed.
Lemma fine_apart st e v : stmt_fine L st -> occurs e (Some v) st -> computed_apart L v e.
Proof. clear. intros F OC. exact (proj2 (F _ _ OC) v eq_refl). Qed.
Lemma fine_cases e cases p : stmt_fine L (StSelect e cases p) -> Forall (@case_literals (list stmt)) cases.
Proof.
  clear. intros LO. apply Forall_forall. intros [gs body] J. unfold case_literals. cbn [fst]. apply Forall_forall. intros g K.
  destruct g as [o e'|from to]; cbn [guard_literals].
  - eapply fine_in32; [exact LO|]. eapply O_case_is; eassumption.
  - split; (eapply fine_in32; [exact LO|]); [eapply O_case_from|eapply O_case_to]; eassumption.
Qed.
Lemma fine_guard g body : stmt_fine L (StDo g body) -> guard_ok g.
Proof. clear. intros LO. destruct g; cbn [guard_ok]; try exact Logic.I; eapply fine_in32; try exact LO; constructor. Qed.
Lemma fine_do g body : stmt_fine L (StDo g body) -> body_fine body.
Proof. clear. intros LO. apply Forall_forall. intros st J e' o OC. apply LO. eapply O_do_body; eassumption. Qed.
Lemma fine_while e body : stmt_fine L (StWhile e body) -> body_fine body.
Proof. clear. intros LO. apply Forall_forall. intros st J e' o OC. apply LO. eapply O_while_body; eassumption. Qed.
Lemma fine_for v p d a b c body : stmt_fine L (StFor v p d a b c body) -> body_fine body.
Proof. clear. intros LO. apply Forall_forall. intros st J e' o OC. apply LO. eapply O_for_body; eassumption. Qed.
Lemma fine_args v p args : stmt_fine L (StCall v p args) -> Forall (arg_all in32) args.
Proof.
  clear. intros LO. apply Forall_forall. intros [[[e|] sep] q] J; cbn [arg_all fst]; [|exact Logic.I].
  eapply fine_in32; [exact LO|]. eapply O_argument; exact J.
Qed.

Lemma fine_if bs e body : stmt_fine L (StIf bs) -> In (e, body) bs -> in32 e /\ body_fine body.
Proof.
  clear. intros LO J. split; [eapply fine_in32; [exact LO|econstructor; exact J]|].
  apply Forall_forall. intros st K e' o OC. apply LO. eapply O_if_body; eassumption.
Qed.
Lemma fine_case e cases p gs body : stmt_fine L (StSelect e cases p) -> In (gs, body) cases -> body_fine body.
Proof. clear. intros LO J. apply Forall_forall. intros st K e' o OC. apply LO. eapply O_case_body; eassumption. Qed.

(** The compiler has a place for what a statement introduces. *)
Lemma introduces_placed k st : introduces k st -> stmt_fine L st -> forall x x', compile_stmt st x = COk x' -> ok x -> has x x' ->
  placed (snd x') k.
Proof.
  assert (BODY : forall l st0, In st0 l -> body_fine l ->
    (stmt_fine L st0 -> forall x x', compile_stmt st0 x = COk x' -> ok x -> has x x' -> placed (snd x') k) ->
    forall x x', compile_stmts l x = COk x' -> ok x -> has x x' -> placed (snd x') k).
  { intros l st0 J LB IH x x' H O HS. destruct (stmts_in _ _ J _ _ H O HS) as (y & y' & C1 & O1 & H1 & X1).
    eapply placed_ext; [exact X1|]. apply (IH ltac:(eapply Forall_forall; eassumption) _ _ C1 O1 H1). }
  induction 1 as [v p e <-|name p sh t <-|name p sh es t <-|v p d start end_ next body <-|v p d start end_ next body st0 J _ IH
    |e body st0 J _ IH|g body st0 J _ IH|bs e body st0 JB J _ IH|e cs0 p gs body st0 JB J _ IH];
    intros LO x x' H0 O HS0; assert (H := H0); rewrite compile_stmt_eq in H; apply bind_ok in H as (y & H & Q); apply COk_inj in Q;
    (assert (HS : has x y) by (eapply has_inner; [exact HS0|rewrite <- Q; apply later_mark|apply le_n]));
    rewrite <- Q, mark_snd.
  - eapply assignment_placed; [exact H|apply O|apply HS].
  - unfold compile_dim in H. apply bind_ok in H as ([r l] & D & H). apply COk_inj in H. subst y. cbn [snd].
    apply (lookup_placed l (mkVarRef name None) r (PScalar t)); [apply HS|]. eapply dim_register_new; [exact L_ns|exact D|apply HS].
  - unfold compile_dim_array in H. apply bind_ok in H as ([r l] & D & H). cbv zeta in H. apply bind_ok in H as (sc & _ & H).
    apply bind_ok in H as ([[f sc'] st] & _ & H). destruct f as [f|]; [|discriminate H]. destruct (packed_new _ _) as [pk|]; [|discriminate H].
    apply COk_inj in H. assert (SX : ls_locals (snd y) = ls_locals l /\ ls_global (snd y) = ls_global l) by (subst y; split; reflexivity).
    assert (XL : ext l L).
    { destruct (has_syms _ _ _ _ _ _ HS) as (E1 & E2 & E3 & E4). destruct SX as [S1 S2]. rewrite S1, S2 in *. split; [exact E1|]. split; [exact E2|]. split; [exact E3|exact E4]. }
    destruct (lookup_placed l (mkVarRef name None) r (PArray t (length es)) XL) as [P|P];
      [eapply dim_register_new; [exact L_ns|exact D|exact XL]|left; exact P|right; rewrite (proj1 SX); exact P].
  - destruct (for_split _ _ _ _ _ _ _ _ _ H O HS) as (x1 & _ & _ & _ & X & P). eapply placed_ext; eassumption.
  - destruct (for_split _ _ _ _ _ _ _ _ _ H O HS) as (x1 & HT & O1 & H1 & _ & _).
    destruct (whole for_parts v p end_ next _ _ _ (stmts_bframe body) (block_iframe body) HT O1 H1)
      as (yb & z & w & CB & OB & HB & _ & _ & _ & _ & _ & _ & X3 & _ & SW & _); [eapply fine_in32; [exact LO|constructor]|].
    rewrite SW. eapply placed_ext; [exact X3|]. eapply BODY; [exact J|eapply fine_for, LO|exact IH|exact CB|exact OB|exact HB].
  - destruct (whole while_loop e _ _ _ (stmts_bframe body) (block_iframe body) H O HS) as (yb & z & CB & _ & _ & LP); [eapply fine_in32; [exact LO|constructor]|].
    eapply placed_ext; [exact (lp_out _ _ _ _ _ _ _ _ _ _ _ _ _ LP)|]. eapply BODY; [exact J|eapply fine_while, LO|exact IH|exact CB|apply LP|apply LP].
  - destruct (whole do_parts g _ _ _ (stmts_bframe body) (block_iframe body) H O HS) as (yb & z & w & CB & LP & _ & SW & _); [eapply fine_guard, LO|].
    rewrite SW. eapply placed_ext; [exact (lp_out _ _ _ _ _ _ _ _ _ _ _ _ _ LP)|]. eapply BODY; [exact J|eapply fine_do, LO|exact IH|exact CB|apply LP|apply LP].
  - destruct (if_filled img L ups entry _ _ _ (blocks_framed bs) H O HS) as (ends & x1 & CB & FI & JU).
    destruct (branch_in bs e body JB ltac:(apply Forall_forall; intros [e1 b1] J1; exact (proj1 (fine_if _ _ _ LO J1))) _ _ _ _ _ CB O ltac:(intros a []) ltac:(intros a []) FI HS JU) as (yb & z & C1 & O1 & H1 & X1).
    eapply placed_ext; [exact X1|]. eapply BODY; [exact J|exact (proj2 (fine_if _ _ _ LO JB))|exact IH|exact C1|exact O1|exact H1].
  - assert (LC' : Forall case_literals (blocks cs0)).
    { pose proof (fine_cases _ _ _ LO) as LC. apply Forall_forall. intros q I1. apply in_map_iff in I1 as (q0 & <- & I1). rewrite Forall_forall in LC. exact (LC q0 I1). }
    destruct (proj1 (whole select_parts e _ p x y (blocks_framed cs0) H O HS ltac:(eapply fine_in32; [exact LO|constructor]) LC') gs (compile_stmts body)) as (yb & z & C1 & O1 & H1 & X1).
    { apply in_map_iff. exists (gs, body). auto. }
    eapply placed_ext; [exact X1|]. eapply BODY; [exact J|eapply fine_case; eassumption|exact IH|exact C1|exact O1|exact H1].
Qed.
Lemma introduces_placed_all k l : Exists (introduces k) l -> body_fine l -> forall x x', compile_stmts l x = COk x' -> ok x -> has x x' ->
  placed (snd x') k.
Proof.
  intros E LB x x' H O HS. apply Exists_exists in E as (st & J & E). destruct (stmts_in _ _ J _ _ H O HS) as (y & y' & C1 & O1 & H1 & X1).
  eapply placed_ext; [exact X1|]. eapply introduces_placed; [exact E|eapply Forall_forall; eassumption|exact C1|exact O1|exact H1].
Qed.

Notation exec := (exec powf callable (is_variable L) (is_shared L) ty calls subs).
Notation exec_for := (exec_for powf callable (is_variable L) (is_shared L) ty calls subs).
Notation exec_branches := (exec_branches powf callable (is_variable L) (is_shared L) ty calls subs).
Notation exec_cases := (exec_cases powf callable (is_variable L) (is_shared L) ty calls subs).
Notation exec_list := (exec_list powf callable (is_variable L) (is_shared L) ty calls subs).
Notation exec_jumps := (exec_jumps powf callable (is_variable L) (is_shared L) ty calls subs).
Notation execs := (execs powf callable (is_variable L) (is_shared L) ty calls subs).

Definition fine_rounds (k : ustr) (t : etype) (end_ next : expr) (body : list stmt) s s' (g : signal) : Prop :=
  forall v ipos, k = ascii_upper (vr_name v) -> ty k = Some t -> in32 end_ -> in32 next -> computed_apart L v next ->
  body_fine body -> rounds end_ next body v ipos s s' g.

Ltac lit LO := eapply fine_in32; [exact LO|]; constructor; try assumption.

(** ** Jumps *)

(** Running [subs] from a label. *)
Definition subs_obey : Prop := forall l s s' g t c h, subs l s s' g -> entry (AtLabel l) t -> state L c h s -> c_pc c = N.to_nat t ->
  stuck c h \/
  match g with
  | SigReturn => exists c' h', go c h c' h' /\ fetched img (c_pc c') IReturn /\ state L c' h' s'
  | SigError e => gfails c h e (world s')
  | _ => False
  end.
Hypothesis subs_ok : subs_obey.

Lemma fixup_in f p x : In (s_pc x, f) (g_fixups (s_gen (emit_fixup f p x))).
Proof. unfold emit_fixup, s_gen, set_gen. cbn [fst t_gen add_fixup g_fixups]. left. reflexivity. Qed.
Lemma goto_sim l p s : simulates (compile_stmt (StGoto l p)) s s (SigGoto (ascii_upper l)).
Proof.
  unmark. rewrite <- Q. apply sim_mark. apply COk_inj in H. right. exists c, h. split; [apply go_refl, ST|]. subst y. cbn [place].
  split; [|exact ST]. exists l. split; [reflexivity|]. rewrite PC. apply fixup_in.
Qed.
Lemma return_sim p s : simulates (compile_stmt (StReturn p)) s s SigReturn.
Proof.
  unmark. rewrite <- Q. apply sim_mark. apply COk_inj in H. right. exists c, h. split; [apply go_refl, ST|]. subst y. cbn [place].
  split; [|exact ST]. rewrite PC. eapply has_at; [exact HS|apply emit_at|discriminate|apply le_n].
Qed.

Lemma gosub_enters c h t s : state L c h s -> fetched img (c_pc c) (IGosub t) ->
  stuck c h \/
  let c1 := mkCtx (N.to_nat t) (c_fp c) (c_handler c) (c_regs c) (mkFrame (c_pc c) (c_fp c) None :: c_stack c) (c_max c) (c_yield c) in
  length (c_stack c) < c_max c /\ gsteps powf img upcall c h c1 h /\ state L c1 h s.
Proof.
  intros ST F. pose proof (hd_yield _ _ _ _ _ _ _ _ ST) as Y.
  pose proof (step_at powf _ c h _ Y F) as E. cbn [dispatch] in E. unfold push_frame in E.
  destruct (Nat.leb_spec (c_max c) (length (c_stack c))) as [LE|LT].
  - left. exists c, h. split; [constructor|]. left. exists XCallStack, (m_world h). split; [right; right; reflexivity|].
    eapply F_machine. exact E.
  - right. cbv zeta. split; [exact LT|]. split.
    + pose proof (gsteps_one powf img upcall c h _ _ E) as R. unfold set_pc, set_yield in R. cbn [c_pc c_fp c_handler c_regs c_stack c_max c_yield] in R.
      rewrite Y. destruct h; exact R.
    + destruct ST as [A1 A2 A3 A4 A5 A6 A7 A8 A9 A10]. constructor; cbn [c_yield c_fp c_max c_stack length]; auto. clear -A3 LT. lia.
Qed.
Lemma gosub_sim l p s s1 g : subs (ascii_upper l) s s1 g ->
  simulates (compile_stmt (StGosub l p)) s (match g with SigError _ => s1 | _ => iterate s s1 end) (match g with SigReturn => SigNormal | _ => g end).
Proof.
  intros SU. unmark. rewrite <- Q. apply sim_mark. apply COk_inj in H.
  assert (SY : snd y = snd x) by (subst y; reflexivity).
  assert (XL : ext (snd x) L) by (rewrite <- SY; apply HS).
  destruct (proj2 (ld_gotos _ _ _ _ _ (has_load _ _ _ _ _ _ HS) (s_pc x) l)) as (t & EN & F); [subst y; apply fixup_in|].
  pose proof (state_ext img L hidden L_ns (snd x) L c h s XL (ext_refl L) ST) as STL.
  rewrite <- PC in F. destruct (gosub_enters c h t s STL F) as [K|(LT & GS & ST1)]; [apply sim_heap, K|]. cbv zeta in *.
  set (c1 := mkCtx _ _ _ _ _ _ _) in *.
  destruct (subs_ok _ _ _ _ t c1 h SU EN ST1 eq_refl) as [(c2 & h2 & G2 & K)|K].
  { apply sim_heap. exists c2, h2. split; [eapply gsteps_trans; eassumption|exact K]. }
  destruct g; try contradiction K.
  - destruct K as (c2 & h2 & (G2 & SF & TK & SL) & F2 & ST2).
    pose proof (hd_yield _ _ _ _ _ _ _ _ ST2) as Y2. pose proof (step_at powf _ c2 h2 _ Y2 F2) as E. cbn [dispatch] in E. unfold do_return in E.
    destruct SF as (SF1 & SF2 & SF3 & SF4). rewrite SF3 in E. cbn [c1 c_stack f_ret f_pc f_fp] in E.
    set (c3 := mkCtx _ _ _ _ _ _ _) in E.
    assert (GS3 : gsteps powf img upcall c h (set_yield c3 false) h2).
    { eapply gsteps_trans; [exact GS|]. eapply gsteps_trans; [exact G2|]. pose proof (gsteps_one powf img upcall c2 h2 _ _ E) as R. destruct h2; exact R. }
    assert (G3 : go c h (set_yield c3 false) h2).
    { split; [exact GS3|]. split; [split; [reflexivity|split; [exact SF2|split; [reflexivity|exact SF4]]]|]. split; [exact TK|exact SL]. }
    eapply sim_normal; [exact L_ns|exact G3| | |rewrite SY; apply ext_refl|apply HS].
    + cbn [c3 c_pc set_yield]. rewrite PC. subst y. symmetry. exact (emit_pc INop p (s_gen x)).
    + eapply state_back with (b := L); [exact L_ns|exact XL|apply ext_refl| |exact ST].
      destruct ST2 as [A1 A2 A3 A4 A5 A6 A7 A8 A9 A10]. cbn [c1 c_fp c_stack c_max c_handler] in SF1, SF2, SF3, SF4.
      constructor; cbn [c3 set_yield c_yield c_fp c_max c_stack]; auto.
      * apply ST.
      * rewrite SF4. pose proof (hd_small _ _ _ _ _ _ _ _ ST) as A. exact A.
      * intros v r p0 x0 S1. pose proof (A7 v r p0 x0 S1) as R. unfold get_reg, reg_index in *. rewrite SF1 in R. exact R.
      * intros v r p0 t0 dims at_ v' r' p' t' dims' at_' S1 S2 E0. eapply A8; [exact S1|exact S2|]. unfold get_reg, reg_index in *. rewrite SF1. exact E0.
      * intros v r p0 t0 dims at_ i S1 I0 E0. eapply A10; [exact S1|exact I0|]. unfold get_reg, reg_index in *. rewrite SF1. exact E0.
  - right. destruct K as (c2 & h2 & G2 & K). exists c2, h2. split; [eapply gsteps_trans; eassumption|exact K].
Qed.

(** Landing on a label. *)
Lemma stmts_split l1 l2 x x' : compile_stmts (l1 ++ l2) x = COk x' -> ok x ->
  exists y, compile_stmts l1 x = COk y /\ compile_stmts l2 y = COk x' /\ ok y /\ sgrows (s_pc x) x y /\ sgrows (s_pc y) y x'.
Proof.
  revert x. induction l1 as [|st l1 IH]; intros x H O.
  - exists x. split; [reflexivity|]. split; [exact H|]. split; [exact O|]. split; [apply sgrows_refl|]. apply (stmts_bframe l2 _ _ H (ok_wf _ O)).
  - cbn [app compile_stmts] in H. apply bind_ok in H as (y & H1 & H2).
    pose proof (stmt_frame st _ _ H1 (ok_wf _ O)) as G1.
    assert (O1 : ok y) by (split; [eapply sgrows_swf; [exact G1|apply O]|eapply stmt_iframe; [exact H1|apply O|apply O]]).
    destruct (IH _ H2 O1) as (z & C1 & C2 & O2 & G2 & G3). exists z. cbn [compile_stmts]. rewrite H1. cbn [bind].
    split; [exact C1|]. split; [exact C2|]. split; [exact O2|]. split; [|exact G3].
    eapply sgrows_trans; [exact G1|]. eapply sgrows_weaken; [exact G2|]. eapply sgrows_pc, G1.
Qed.
Lemma landing_sim s before name p after x x' b c h s1 s2 s3 g t c0 h0 :
  compile_stmts (before ++ StLabel name p :: after) x = COk x' -> ok x -> has x x' -> body_fine before ->
  state (snd x) c0 h0 s -> ext (snd x') b -> ext b L -> state b c h s1 -> entry (AtLabel (ascii_upper name)) t -> c_pc c = N.to_nat t ->
  lands (is_shared L) s before s1 s2 -> simulates (compile_stmts after) s2 s3 g -> sim x' c h s3 g.
Proof.
  intros H O HS LB ST0 XB BL ST EN PC (WE & LA) SM.
  destruct (stmts_split _ _ _ _ H O) as (y & C1 & C2 & O1 & G1 & G2). cbn [compile_stmts] in C2. apply bind_ok in C2 as (z & CL & C3).
  pose proof (stmt_frame _ _ _ CL (ok_wf _ O1)) as G3.
  assert (O2 : ok z) by (split; [eapply sgrows_swf; [exact G3|apply O1]|eapply stmt_iframe; [exact CL|apply O1|apply O1]]).
  pose proof (stmts_bframe after _ _ C3 (ok_wf _ O2)) as G4.
  assert (H1 : has x y) by (eapply has_inner; [exact HS|apply later_grows, G2|apply le_n]).
  assert (H2 : has z x') by (eapply has_inner; [exact HS|apply later_refl|pose proof (sgrows_pc _ _ _ G1); pose proof (sgrows_pc _ _ _ G3); lia]).
  rewrite compile_stmt_eq in CL. apply bind_ok in CL as (z0 & CL & Q). apply COk_inj in Q.
  unfold compile_label in CL. destruct (define_label _ _ _) as [g0 fresh] eqn:DL. destruct fresh; [|discriminate CL]. apply COk_inj in CL.
  assert (AL : assoc (g_labels (s_gen z0)) (ascii_upper name) = Some (s_pc y)).
  { subst z0. unfold define_label in DL. apply pair_inj in DL as [<- FR]. unfold s_gen, set_gen. cbn [fst t_gen g_labels]. rewrite assoc_insert_get, ustr_eqb_refl. reflexivity. }
  assert (PZ : s_pc z = s_pc y).
  { rewrite <- Q, mark_pc. subst z0. unfold define_label in DL. apply pair_inj in DL as [<- _]. reflexivity. }
  assert (AZ : assoc (g_labels (s_gen z)) (ascii_upper name) = Some (s_pc y)) by (rewrite <- Q, mark_labels; exact AL).
  assert (TZ : N.to_nat t = s_pc y).
  { eapply (ld_labels _ _ _ _ _ (has_load _ _ _ _ _ _ HS)); [|exact EN]. apply (la_labels _ _ (later_grows _ _ G4)), AZ. }
  apply (SM _ _ _ _ C3 O2 H2); [|rewrite PC, TZ, PZ; reflexivity].
  eapply state_forget with (b := b) (s := s1); [exact L_ns|eapply ext_trans; [apply ext_grows, G4|exact XB]|exact BL|exact ST|exact WE|].
  intros v x0 V. destruct (LA (symkey (vr_name v))) as [[KN K1]|[_ K1]]; [|congruence].
  assert (SZ : snd z = snd y) by (rewrite <- Q, mark_snd; subst z0; reflexivity). rewrite SZ.
  split; [congruence|]. destruct KN as [SH|[V0|DE]].
  - left. exact SH.
  - destruct (vals s (symkey (vr_name v))) as [y0|] eqn:V1; [|contradiction V0; reflexivity].
    eapply placed_ext; [apply ext_grows, G1|]. eapply state_placed; eassumption.
  - eapply introduces_placed_all; eassumption.
Qed.

(** Jumps within a block. *)
Definition jumping s (l : list stmt) s1 (g : signal) s' (g' : signal) : Prop :=
  body_fine l -> forall x x' c h c0 h0, compile_stmts l x = COk x' -> ok x -> has x x' -> state (snd x) c0 h0 s ->
  sim x' c h s1 g -> sim x' c h s' g'.
Lemma jump_sim s before name p after s1 s2 s3 g s' g' : lands (is_shared L) s before s1 s2 -> (body_fine after -> simulates (compile_stmts after) s2 s3 g) ->
  jumping s (before ++ StLabel name p :: after) s3 g s' g' ->
  jumping s (before ++ StLabel name p :: after) s1 (SigGoto (ascii_upper name)) s' g'.
Proof.
  intros LA B N1 LB x x' c h c0 h0 H O HS ST SM. assert (LB' := LB). apply Forall_app in LB' as [LB1 LB2]. apply Forall_inv_tail in LB2.
  apply (N1 LB x x' c h c0 h0 H O HS ST). destruct SM as [F|(c1 & h1 & G & (n & NE & IN) & S1)]; [apply sim_heap, F|].
  destruct (proj1 (ld_gotos _ _ _ _ _ (has_load _ _ _ _ _ _ HS) (c_pc c1) n) IN) as (t & EN & F). change (symkey n) with (ascii_upper n) in EN. rewrite NE in EN.
  eapply sim_after; [eapply go_trans; [exact G|]; apply go_jump; [apply S1|apply S1|exact F]|].
  eapply (landing_sim s before name p after x x' (snd x') (set_pc c1 (N.to_nat t)) h1 s1 s2 s3 g t c0 h0); try eassumption.
  - apply ext_refl.
  - apply HS.
  - apply state_pc, S1.
  - reflexivity.
  - apply B, LB2.
Qed.

Lemma exec_sim :
  (forall s st s' g, exec s st s' g -> stmt_fine L st -> simulates (compile_stmt st) s s' g) /\
  (forall s k t end_ next body s' g, exec_for s k t end_ next body s' g -> fine_rounds k t end_ next body s s' g) /\
  (forall s bs s' g, exec_branches s bs s' g -> Forall (fun b => in32 (fst b) /\ body_fine (snd b)) bs -> branching bs s s' g) /\
  (forall s d cs s' g, exec_cases s d cs s' g -> Forall (fun b => body_fine (snd b)) cs -> choosing d cs s s' g) /\
  (forall s l s' g, exec_list s l s' g -> body_fine l -> simulates (compile_stmts l) s s' g) /\
  (forall s l s1 g s' g', exec_jumps s l s1 g s' g' -> jumping s l s1 g s' g') /\
  (forall s l s' g, execs s l s' g -> body_fine l -> simulates (compile_stmts l) s s' g).
Proof.
  apply (exec_all_min powf W callable (is_variable L) (is_shared L) ty calls subs
    (fun s st s' g => stmt_fine L st -> simulates (compile_stmt st) s s' g)
    (fun s k t end_ next body s' g => fine_rounds k t end_ next body s s' g)
    (fun s bs s' g => Forall (fun b => in32 (fst b) /\ body_fine (snd b)) bs -> branching bs s s' g)
    (fun s d cs s' g => Forall (fun b => body_fine (snd b)) cs -> choosing d cs s s' g)
    (fun s l s' g => body_fine l -> simulates (compile_stmts l) s s' g)
    (fun s l s1 g s' g' => jumping s l s1 g s' g')
    (fun s l s' g => body_fine l -> simulates (compile_stmts l) s s' g)).
  (* assignments and definitions *)
  - intros s v p e k t d s1 -> TY EV LO. unmark. rewrite <- Q. apply sim_mark.
    destruct (whole assign_sim v p e x y c h s t _ _ H O HS ltac:(lit LO) ltac:(eapply fine_apart; [exact LO|constructor]) ST PC TY EV) as [F|A]; [apply sim_heap, F|].
    destruct A as (c1 & h1 & G & P & S1). eapply sim_normal; [exact L_ns|exact G|exact P|exact S1|apply ext_refl|apply HS].
  - intros s v p e t er s1 TY EV LO. unmark. rewrite <- Q. apply sim_mark.
    destruct (whole assign_sim v p e x y c h s t _ _ H O HS ltac:(lit LO) ltac:(eapply fine_apart; [exact LO|constructor]) ST PC TY EV) as [F|A];
      [apply sim_heap, F|apply sim_error, A].
  - intros s name p sh t LO. unmark. rewrite <- Q. apply sim_mark. eapply dim_sim; eassumption.
  - intros s name p sh es t zs s1 IN PO PR LO. unmark. rewrite <- Q. apply sim_mark.
    refine (proj1 (whole dim_array_sim name p sh es t x y c h s (Ok zs) s1 H O HS _ ST PC IN) PO PR).
    apply Forall_forall. intros e J. lit LO.
  - intros s name p sh es t zs s1 i z IN FN LO. unmark. rewrite <- Q. apply sim_mark.
    refine (proj2 (whole dim_array_sim name p sh es t x y c h s (Ok zs) s1 H O HS _ ST PC IN) i z FN).
    apply Forall_forall. intros e J. lit LO.
  - intros s name p sh es t er s1 IN LO. unmark. rewrite <- Q. apply sim_mark.
    refine (whole dim_array_sim name p sh es t x y c h s (Err er) s1 H O HS _ ST PC IN).
    apply Forall_forall. intros e J. lit LO.
  - intros s v p subs0 e k t dims0 at0 d s1 zs s2 dims at_ -> V0 EV IN V2 VS LO. unmark. rewrite <- Q. apply sim_mark.
    refine (whole element_sim v p subs0 e x y c h s t dims0 at0 (Ok d) s1 H O HS _ _ ST PC V0 EV _ _ _).
    + lit LO.
    + apply Forall_forall. intros e' J. lit LO.
    + left. exists zs, s2, dims, at_. split; [exact IN|]. split; [exact V2|]. left. auto.
  - intros s v p subs0 e k t dims0 at0 d s1 zs s2 dims at_ z n -> V0 EV IN V2 FB LO. unmark. rewrite <- Q. apply sim_mark.
    refine (whole element_sim v p subs0 e x y c h s t dims0 at0 (Ok d) s1 H O HS _ _ ST PC V0 EV _ _ _).
    + lit LO.
    + apply Forall_forall. intros e' J. lit LO.
    + left. exists zs, s2, dims, at_. split; [exact IN|]. split; [exact V2|]. right. eauto.
  - intros s v p subs0 e k t er s1 dims at_ -> V0 EV LO. unmark. rewrite <- Q. apply sim_mark.
    refine (whole element_sim v p subs0 e x y c h s t dims at_ (Err er) s1 H O HS _ _ ST PC V0 EV).
    + lit LO.
    + apply Forall_forall. intros e' J. lit LO.
  - intros s v p subs0 e k t d s1 er s2 dims at_ -> V0 EV IN LO. unmark. rewrite <- Q. apply sim_mark.
    refine (whole element_sim v p subs0 e x y c h s t dims at_ (Ok d) s1 H O HS _ _ ST PC V0 EV _ _ _).
    + lit LO.
    + apply Forall_forall. intros e' J. lit LO.
    + right. eauto.
  (* commands *)
  - intros s v p args k md syn gs s1 s2 -> CL CH DE CA LO. unmark. rewrite <- Q. apply sim_mark.
    refine (whole call_stmt_sim commands_ok v p args x y c h s md syn (Ok gs) s1 H O HS (fine_args _ _ _ LO) ST PC CL CH DE _ _ _). left. auto.
  - intros s v p args k md syn gs s1 er s2 -> CL CH DE CA LO. unmark. rewrite <- Q. apply sim_mark.
    refine (whole call_stmt_sim commands_ok v p args x y c h s md syn (Ok gs) s1 H O HS (fine_args _ _ _ LO) ST PC CL CH DE _ _ _). right. eauto.
  - intros s v p args k md syn er s1 -> CL CH DE LO. unmark. rewrite <- Q. apply sim_mark.
    exact (whole call_stmt_sim commands_ok v p args x y c h s md syn (Err er) s1 H O HS (fine_args _ _ _ LO) ST PC CL CH DE).
  - intros s l _. unmark. rewrite <- Q. apply sim_mark. unfold compile_data in H. apply bind_ok in H as (vs & _ & H). apply COk_inj in H. subst y.
    eapply silent; [exact L_ns|exact HS|apply ext_refl|reflexivity|exact ST|exact PC].
  - intros s v p ps _. unmark. rewrite <- Q. apply sim_mark. unfold compile_declare in H. destruct (t_current _); [discriminate H|].
    apply bind_ok in H as (l & D & H). apply COk_inj in H. subst y. apply declare_grows in D as (LG & _).
    eapply silent; [exact L_ns|exact HS|apply ext_grows, LG|reflexivity|exact ST|exact PC].
  - intros s v p ps body q _. unmark. rewrite <- Q. apply sim_mark.
    destruct (callable_jump _ _ _ _ _ _ _ (stmts_bframe body) H (ok_wf _ O)) as (t & CT & TT).
    pose proof (callable_frame _ _ _ _ _ (stmts_bframe body) _ _ H (ok_wf _ O)) as G.
    destruct (jumped powf img upcall L hidden L_ns (snd x) (snd y) c h s t (s_pc y) ST) as (c1 & h1 & G1 & P1 & S1);
      [rewrite PC; eapply has_at; [exact HS|exact CT|discriminate|apply le_n]|exact TT|apply ext_grows, G|apply HS|].
    eapply sim_normal; [exact L_ns|exact G1|exact P1|exact S1|apply ext_refl|apply HS].
  - intros s l p _. unmark. rewrite <- Q. apply sim_mark. unfold compile_label in H. destruct (define_label _ _ _) as [g0 fresh] eqn:DL.
    destruct fresh; [|discriminate H]. apply COk_inj in H. subst y. unfold define_label in DL. apply pair_inj in DL as [<- _].
    eapply silent; [exact L_ns|exact HS|apply ext_refl|reflexivity|exact ST|exact PC].
  (* jumps *)
  - intros s l p _. apply goto_sim.
  - intros s l p s1 SU _. apply (gosub_sim l p s s1 SigReturn SU).
  - intros s l p er s1 SU _. apply (gosub_sim l p s s1 (SigError er) SU).
  - intros s p _. apply return_sim.
  (* END *)
  - intros s p _. unmark. rewrite <- Q. apply sim_mark.
    refine (proj1 (whole end_sim None p x y c h s (Ok (CInt 0)) s H O HS _ ST PC _) _); [discriminate|split; reflexivity|split; reflexivity || discriminate].
  - intros s e p z s1 EV RG LO. unmark. rewrite <- Q. apply sim_mark.
    refine (proj1 (whole end_sim (Some e) p x y c h s (Ok (CInt z)) s1 H O HS _ ST PC EV) RG). intros ? K; injection K as <-; lit LO.
  - intros s e p z s1 EV RG LO. unmark. rewrite <- Q. apply sim_mark.
    refine (proj2 (whole end_sim (Some e) p x y c h s (Ok (CInt z)) s1 H O HS _ ST PC EV) RG). intros ? K; injection K as <-; lit LO.
  - intros s e p er s1 EV LO. unmark. rewrite <- Q. apply sim_mark.
    refine (whole end_sim (Some e) p x y c h s (Err er) s1 H O HS _ ST PC EV). intros ? K; injection K as <-; lit LO.
  (* IF *)
  - intros s bs s' g _ IH LO. apply if_sim, IH. apply Forall_forall. intros [e body] J. cbn [fst snd].
    split; [eapply fine_in32; [exact LO|econstructor; exact J]|].
    apply Forall_forall. intros st K e' o OC. apply LO. eapply O_if_body; eassumption.
  (* SELECT *)
  - intros s e cs0 p d s1 s' g EV _ IH LO. eapply select_sim; [lit LO|eapply fine_cases, LO|exact EV|]. apply IH.
    apply Forall_forall. intros [gs body] J. apply Forall_forall. intros st K e' o OC. apply LO. eapply O_case_body; eassumption.
  - intros s e cs0 p er s1 EV LO. apply select_fails_sim; [lit LO|eapply fine_cases, LO|exact EV].
  (* WHILE *)
  - intros s e body s1 T LO. apply while_done_sim; [lit LO|exact T].
  - intros s e body er s1 T LO. apply while_fails_sim; [lit LO|exact T].
  - intros s e body s1 s' g T _ IH NG LO. eapply while_leaves_sim; [lit LO|exact T| |exact NG]. apply IH. eapply fine_while, LO.
  - intros s e body s0 s1 s' g T _ IH _ IH2 LO. eapply while_again_sim; [lit LO|exact T| |apply IH2, LO]. apply IH. eapply fine_while, LO.
  (* DO *)
  - intros s g body s1 T LO. apply do_done_sim; [eapply fine_guard, LO|exact T].
  - intros s g body er s1 T LO. apply do_fails_sim; [eapply fine_guard, LO|exact T].
  - intros s g body s1 s' T _ IH LO. eapply do_exits_sim; [eapply fine_guard, LO|exact T|]. apply IH. eapply fine_do, LO.
  - intros s g body s1 s' sg T _ IH N1 N2 LO. eapply do_leaves_sim; [eapply fine_guard, LO|exact T| |exact N1|exact N2]. apply IH. eapply fine_do, LO.
  - intros s g body s1 s2 s' T _ IH T2 LO. eapply do_stops_sim; [eapply fine_guard, LO|exact T| |exact T2]. apply IH. eapply fine_do, LO.
  - intros s g body s1 s2 er s' T _ IH T2 LO. eapply do_fails_after_sim; [eapply fine_guard, LO|exact T| |exact T2]. apply IH. eapply fine_do, LO.
  - intros s g body s1 s2 s3 s' sg T _ IH T2 _ IH2 LO. eapply do_again_sim; [eapply fine_guard, LO|exact T| |exact T2|apply IH2, LO].
    apply IH. eapply fine_do, LO.
  - intros s p _. apply exit_do_sim.
  (* FOR *)
  - intros s v p dbl start end_ next body k t d s1 s' g -> TY EV _ IH LO.
    eapply for_sim; [lit LO|eapply fine_apart; [exact LO|constructor]|exact TY|exact EV|].
    apply IH; [reflexivity|exact TY|lit LO| |eapply fine_apart; [exact LO|]|eapply fine_for, LO]; [eapply fine_in32; [exact LO|]; apply O_for_next|apply O_for_next].
  - intros s v p dbl start end_ next body t er s1 TY EV LO.
    eapply for_fails_sim; [lit LO|eapply fine_apart; [exact LO|constructor]|exact TY|exact EV].
  - intros s p _. apply exit_for_sim.
  - intros s p _. unmark. rewrite <- Q. apply sim_mark. eapply exit_callable_sim; eassumption.
  - intros s p _. unmark. rewrite <- Q. apply sim_mark. eapply exit_callable_sim; eassumption.
  - intros s k t end_ next body s1 T v ip -> TY LE LN CA LB. apply rounds_done; assumption.
  - intros s k t end_ next body er s1 T v ip -> TY LE LN CA LB. apply rounds_fails; assumption.
  - intros s k t end_ next body s1 s' T _ IH v ip -> TY LE LN CA LB. eapply rounds_exits; eauto.
  - intros s k t end_ next body s1 s' g T _ IH N1 N2 v ip -> TY LE LN CA LB. eapply rounds_leaves; eauto.
  - intros s k t end_ next body s1 s2 er s' T _ IH EV v ip -> TY LE LN CA LB. eapply rounds_next_fails; eauto.
  - intros s k t end_ next body s1 s2 d s3 s' g T _ IH EV _ IH2 v ip -> TY LE LN CA LB. eapply rounds_again; eauto.
  (* the branches *)
  - intros s _. apply no_branch_sim.
  - intros s e body bs s1 s' g T _ IH LO. apply Forall_cons_iff in LO as [[LE LB] LO]. eapply branch_sim; eauto.
  - intros s e body bs s1 s' g T _ IH LO. apply Forall_cons_iff in LO as [[LE LB] LO]. eapply other_branch_sim; eauto.
  - intros s e body bs er s1 T LO. apply Forall_cons_iff in LO as [[LE LB] LO]. apply branch_fails_sim; auto.
  (* the cases *)
  - intros s d _. exists NoCase, s. split; [constructor|auto].
  - intros s d body cs0 s' g _ IH LO. apply Forall_cons_iff in LO as [LB LO]. exists (Case 0), s. split; [constructor|].
    intros gs b K. cbn in K. injection K as <- <-. apply IH, LB.
  - intros s d gs body cs0 s1 s' g A _ IH LO. apply Forall_cons_iff in LO as [LB LO]. exists (Case 0), s1. split; [constructor; exact A|].
    intros gs' b K. cbn in K. injection K as <- <-. apply IH, LB.
  - intros s d gs body cs0 s1 s' g NE A _ IH LO. apply Forall_cons_iff in LO as [LB LO]. destruct (IH LO) as (ch & s2 & PK & B).
    exists (later_case ch), s2. split; [econstructor; eassumption|]. destruct ch; exact B.
  - intros s d gs body cs0 er s1 A LO. exists (CaseFails er), s1. split; [constructor; exact A|auto].
  (* blocks *)
  - intros s _ x x' c h H O HS ST PC. cbn [compile_stmts] in H. apply COk_inj in H. subst x'.
    eapply silent; [exact L_ns|exact HS|apply ext_refl|reflexivity|exact ST|exact PC].
  - intros s st l s1 s' g _ IH1 _ IH2 LO. apply Forall_cons_iff in LO as [LS LO]. eapply cons_sim; auto.
  - intros s st l s' g _ IH1 NG LO. apply Forall_cons_iff in LO as [LS LO]. apply leave_sim; auto.
  (* jumps *)
  - intros s l s1 g _ _ x x' c h c0 h0 _ _ _ _ SM. exact SM.
  - intros s before name p after s1 s2 s3 g s' g' LA _ IH _ IH2. eapply jump_sim; eassumption.
  - intros s l s1 g s' g' _ IH _ IH2 LO x x' c h H O HS ST PC. eapply IH2; try eassumption. eapply IH; eassumption.
Qed.
End Stmts.

(** * GOSUB *)

Section Gosubs.
Variable powf : N -> N -> N.
Variable img : image.
Context {W : Type}.
Variable upcall : N -> N -> nat -> image -> ctx -> heap -> W -> option (upcall_result W).
Variable L : lsyms.
Variable hidden : N -> option hdatum.
Variable calls : ustr -> list given -> env W -> res vm_error (option cdatum) -> env W -> Prop.
Variable ups : list ustr.
Variable entry : point -> N -> Prop.
Hypothesis L_ok : tables_ok L.
Hypothesis L_ns : no_shadowing L.
Hypothesis L_ap : names_apart L.
Hypothesis functions_ok : functions_obey powf img upcall L hidden calls ups entry.
Hypothesis calls_local : forall k gs s r s' k', calls k gs s r s' -> is_shared L k' = false -> (r = Ok None -> forall t, ~ In (GRef k' t) gs) -> vals s k' = None -> vals s' k' = None.
Hypothesis commands_ok : commands_obey powf img upcall L hidden calls ups entry.
Variables (l : list stmt) (x x' : sst) (c0 : ctx) (h0 : mem W) (s0 : env W).
Hypothesis H : compile_stmts l x = COk x'.
Hypothesis O : ok x.
Hypothesis HS : has img L ups entry x x'.
Hypothesis LF : body_fine L l.
Hypothesis ST0 : holding L hidden (i_constants img) (snd x) None c0 h0 s0.

Lemma gosubs_obey n : subs_obey powf img upcall L hidden (gosubs powf L calls n s0 l) entry.
Proof.
  induction n as [|n IH]; intros label s s' g t c h SU EN ST PC; [destruct SU|]. destruct SU as [GR J].
  pose proof (exec_sim powf img upcall L hidden calls (gosubs powf L calls n s0 l) ups entry L_ok L_ns L_ap functions_ok calls_local commands_ok IH)
    as (_ & _ & _ & _ & SL & SJ & _).
  unfold exec_jumps_in in J. inversion J as [? ? ? ? NL|? before name p after ? s2 s3 g3 ? ? LA EL JJ]; subst.
  { destruct GR as [G|[e G]]; discriminate G. }
  assert (LF' := LF). apply Forall_app in LF' as [LF1 LF2]. apply Forall_inv_tail in LF2.
  pose proof (landing_sim powf img upcall L hidden calls ups entry L_ok L_ns L_ap functions_ok calls_local s0 before name p after x x' L c h s s2 s3 g3 t c0 h0
    H O HS LF1 ST0 (has_syms _ _ _ _ _ _ HS) (ext_refl L) ST EN PC LA (SL _ _ _ _ EL LF2)) as S1.
  destruct (SJ _ _ _ _ _ _ JJ LF x x' c h c0 h0 H O HS ST0 S1) as [F|S2]; [left; exact F|right].
  destruct GR as [->|[e ->]]; [|exact S2]. destruct S2 as (c1 & h1 & G & P & ST1). exists c1, h1. split; [exact G|]. split; [exact P|].
  eapply state_ext; [exact L_ns|apply HS|apply ext_refl|exact ST1].
Qed.
End Gosubs.
