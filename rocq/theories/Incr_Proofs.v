(** Proofs about incremental compilation. *)
From Coq Require Import Permutation.
From Verif Require Import Base Bytecode_Model Mem_Model Mem_Spec Mem_Proofs Vm_Model Vm_Spec Vm_Proofs
  Ids_Model Ids_Spec Ids_Proofs Ast_Model Syms_Model Syms_Proofs Codegen_Model Codegen_Proofs
  Exprs_Model Exprs_Proofs Top_Model Top_Proofs Incr_Spec.

(** * Resolving fixups *)

Lemma apply_fixup_list_grows b l : forall g g',
  apply_fixup_list l g = COk g' -> Forall (fun f => b <= fst f) l ->
  grows b g g' /\ next_pc g' = next_pc g /\ g_fixups g' = g_fixups g /\
  (forall a, Forall (fun f => fst f <> a) l -> nth_error (g_code g') a = nth_error (g_code g) a) /\
  g_instrs g' = g_instrs g /\ g_constants g' = g_constants g /\ g_upcalls g' = g_upcalls g /\
  g_labels g' = g_labels g /\ g_callables g' = g_callables g.
Proof.
  induction l as [|[a f] l IH]; intros g g' H L; cbn [apply_fixup_list] in H.
  - inv_ok. split; [apply grows_refl|]. repeat split.
  - destruct (nth_error (g_instrs g) a); [|discriminate]. inv_ok.
    apply Forall_cons_iff in L as [L1 L]. cbn [fst] in L1.
    destruct (IH _ _ H L) as (G & P & Q & R & Z). split; [|split; [|split; [|split]]].
    + eapply grows_trans; [apply grows_patch; exact L1|exact G].
    + rewrite P. apply patch_pc.
    + rewrite Q. reflexivity.
    + intros c F. apply Forall_cons_iff in F as [F1 F]. cbn [fst] in F1. rewrite R by exact F.
      unfold patch, with_code. cbn [g_code]. apply upd_nth_other. congruence.
    + exact Z.
Qed.

(** * The compiler and the image agree *)

Record synced (k : compiler) (img : cimage) : Prop := mkSynced {
  sy_gwf : gwf (t_gen (k_ctx k));
  sy_fix : g_fixups (t_gen (k_ctx k)) = [];
  sy_do : t_do (k_ctx k) = [];
  sy_for : t_for (k_ctx k) = [];
  sy_cur : t_current (k_ctx k) = None;
  sy_exits : t_exits (k_ctx k) = [];
  sy_pos : 1 <= length (ci_code img) <= length (g_code (t_gen (k_ctx k)));
  sy_meta_len : length (ci_instrs img) = length (ci_code img);
  sy_code : removelast (ci_code img) =
    firstn (length (ci_code img) - 1) (map encode (g_code (t_gen (k_ctx k))));
  sy_meta : removelast (ci_instrs img) =
    firstn (length (ci_code img) - 1) (g_instrs (t_gen (k_ctx k)));
  sy_const : exists new, wf (g_constants (t_gen (k_ctx k))) (ci_constants img ++ new);
  sy_up : exists new, wf (g_upcalls (t_gen (k_ctx k))) (ci_upcalls img ++ new);
  sy_data : exists new, t_data (k_ctx k) = ci_data img ++ new;
  sy_globals : forall v, In v (ci_globals img) ->
    In v (var_infos (gs_vars (ls_global (k_syms k))) register_global);
  sy_program : forall v, In v (ci_program img) -> In v (var_infos (ls_locals (k_syms k)) register_local)
}.

Lemma length_removelast {A} (l : list A) : length (removelast l) = length l - 1.
Proof.
  induction l as [|a [|b l] IH]; try reflexivity.
  cbn [length] in *. change (removelast (a :: b :: l)) with (a :: removelast (b :: l)). cbn [length]. lia.
Qed.

Lemma firstn_removelast {A} n (l : list A) : n < length l -> firstn n (removelast l) = firstn n l.
Proof.
  revert n. induction l as [|a [|b l] IH]; intros n H; cbn [length] in H.
  - lia.
  - destruct n; [reflexivity|lia].
  - change (removelast (a :: b :: l)) with (a :: removelast (b :: l)). destruct n; [reflexivity|].
    cbn [firstn]. f_equal. apply IH. cbn [length]. lia.
Qed.

Lemma removelast_firstn_sub {A} (l : list A) : removelast l = firstn (length l - 1) l.
Proof.
  induction l as [|a [|b l] IH]; try reflexivity.
  change (removelast (a :: b :: l)) with (a :: removelast (b :: l)). rewrite IH. cbn [length].
  replace (S (S (length l)) - 1) with (S (S (length l) - 1)) by lia. reflexivity.
Qed.

Lemma last_at {A} (l : list A) i x d : S i = length l -> nth_error l i = Some x -> last l d = x.
Proof.
  revert i. induction l as [|a [|b l] IH]; intros i L H; cbn [length] in L; try lia.
  - destruct i; [|lia]. injection H as ->. reflexivity.
  - destruct i; [lia|]. change (last (a :: b :: l) d) with (last (b :: l) d). apply (IH i); [cbn [length]; lia|exact H].
Qed.

Lemma nth_removelast {A} (l : list A) i : S i < length l -> nth_error (removelast l) i = nth_error l i.
Proof.
  revert i. induction l as [|a [|b l] IH]; intros i H; cbn [length] in H; try lia.
  change (removelast (a :: b :: l)) with (a :: removelast (b :: l)). destruct i; [reflexivity|].
  cbn [nth_error]. apply IH. cbn [length]. lia.
Qed.

Lemma nth_firstn {A} n (l : list A) i : i < n -> nth_error (firstn n l) i = nth_error l i.
Proof.
  revert l i. induction n; intros l i H; [lia|]. destruct l; [destruct i; reflexivity|].
  destruct i; [reflexivity|]. cbn. apply IHn. lia.
Qed.

Lemma firstn_same {A} n (l l' : list A) : (forall i, i < n -> nth_error l i = nth_error l' i) ->
  firstn n l = firstn n l'.
Proof.
  intros H. apply nth_error_ext. intros i. destruct (Nat.lt_ge_cases i n) as [L|L].
  - rewrite !nth_firstn by assumption. auto.
  - rewrite !(proj2 (nth_error_None _ _)); [reflexivity| |]; rewrite firstn_length; lia.
Qed.

Lemma var_infos_grows t t' mk v : tgrows t t' -> In v (var_infos t mk) -> In v (var_infos t' mk).
Proof. intros [[n ->] _] H. unfold var_infos. rewrite flat_map_app. apply in_or_app. auto. Qed.

Lemma keys_split {K V} (m : @idmap K V) old new : wf m (old ++ new) ->
  keys_to_vec_from m (length old) = new.
Proof.
  intros W. unfold keys_to_vec_from. rewrite (keys_listed m (old ++ new) m W (Permutation_refl _)).
  rewrite skipn_app, skipn_all, Nat.sub_diag. reflexivity.
Qed.

Lemma compile_more_synced k img src k' img' : synced k img ->
  compile_more k img src = (Compiled, k', img') ->
  synced k' img' /\ only_appended img img' /\
  ci_code img' = map encode (g_code (t_gen (k_ctx k'))) /\
  ci_instrs img' = g_instrs (t_gen (k_ctx k')) /\
  last (ci_code img') 0%N = encode IEof /\
  exists x g', compile_stmts (fst src) (set_gen (pop_eof (t_gen (k_ctx k))) (k_ctx k), k_syms k) = COk x /\
    snd src = None /\
    apply_fixups (emit IEof (0, 0)%N (s_gen x)) = COk g' /\ t_gen (k_ctx k') = g' /\
    k_syms k' = snd x /\ t_data (k_ctx k') = t_data (fst x) /\ t_defined (k_ctx k') = t_defined (fst x) /\
    wf (g_constants g') (ci_constants img') /\ wf (g_upcalls g') (ci_upcalls img').
Proof.
  intros [W FX DO FO CU EX POS ML CO ME (nc & WC) (nu & WU) (nd & DA) GL PR] H.
  unfold compile_more, compile_source in H.
  set (g0 := t_gen (k_ctx k)) in *.
  assert (NE : exists i r, g_code g0 = i :: r) by (destruct (g_code g0); [cbn in POS; lia|eauto]).
  set (c0 := set_gen (pop_eof g0) (k_ctx k)) in *.
  destruct (compile_input (fst src) (c0, k_syms k)) as [[c1 l1] [u| |]] eqn:CI;
    [| |]; [|discriminate H|discriminate H].
  destruct u. destruct (snd src) as [e|] eqn:SRC; [discriminate H|].
  set (n := length (ci_code img)) in *.
  assert (P0 : g_code (pop_eof g0) = removelast (g_code g0) /\ g_instrs (pop_eof g0) = removelast (g_instrs g0) /\
    g_constants (pop_eof g0) = g_constants g0 /\ g_upcalls (pop_eof g0) = g_upcalls g0 /\ g_fixups (pop_eof g0) = g_fixups g0).
  { destruct NE as (i & r & NE). unfold pop_eof. rewrite NE. cbn [with_code g_code g_instrs g_constants g_upcalls g_fixups].
    repeat split. }
  destruct P0 as (P1 & P2 & P3 & P4 & P5).
  assert (W0 : swf (c0, k_syms k)).
  { split.
    - destruct W as (W1 & W2 & W3). unfold s_gen. cbn [fst set_gen t_gen c0]. split; [|rewrite P3, P4; auto].
      rewrite P1, P2, !length_removelast, W1. reflexivity.
    - intros _. exact EX. }
  destruct (input_frame _ _ _ CI W0) as [G ST].
  destruct (build_image_delta img _ _ _ _) as [[g2 delta]| |] eqn:BD; [|discriminate H|discriminate H].
  injection H as <- <-. unfold build_image_delta in BD. apply bind_ok in BD as (g3 & AF & BD).
  apply COk_inj in BD. apply pair_inj in BD as [E2 <-]; subst g2.
  cbn [k_ctx k_syms set_gen t_gen t_data t_do t_for t_current t_exits] in *.
  set (ge := emit IEof (0, 0)%N (t_gen c1)) in *.
  pose proof G as G'. destruct G as [GG (nd2 & GD) GDO GFO GC (ne & GE1 & GE2 & GE3) GS].
  cbn [fst snd s_gen c0 set_gen t_gen t_data t_do t_for t_current t_exits s_pc] in *.
  assert (B0 : next_pc (pop_eof g0) = length (g_code g0) - 1).
  { unfold next_pc. rewrite P1. apply length_removelast. }
  unfold s_pc, s_gen in GG. cbn [fst set_gen t_gen] in GG.
  rewrite DO in GDO. rewrite FO in GFO. cbn [stack_grows] in GDO, GFO. rewrite CU in *. rewrite (GE3 eq_refl), EX in GE1.
  cbn [app] in GE1.
  set (b := next_pc (pop_eof g0)) in *.
  assert (W1 : gwf (t_gen c1)) by (eapply grows_gwf; [exact GG|apply W0]).
  assert (LB : b <= next_pc (t_gen c1)) by apply GG.
  assert (G2 : grows b (pop_eof g0) ge) by (eapply grows_trans; [exact GG|apply grows_emit; assumption]).
  assert (W2 : gwf ge) by (eapply grows_gwf; [exact G2|apply W0]).
  destruct (gr_fix _ _ _ GG) as (nf & NF1 & NF2). rewrite P5, FX, app_nil_r in NF1.
  unfold apply_fixups in AF.
  set (ge0 := mkCodegen (g_code ge) (g_instrs ge) (g_constants ge) [] (g_labels ge) (g_callables ge) (g_upcalls ge)) in *.
  assert (FXL : Forall (fun f => b <= fst f) (g_fixups ge)).
  { change (g_fixups ge) with (g_fixups (t_gen c1)). rewrite NF1. eapply Forall_impl; [|exact NF2]. cbn. lia. }
  destruct (apply_fixup_list_grows b _ _ _ AF FXL) as (G3 & PC3 & F3 & C3 & I3 & K3 & U3 & _).
  assert (PE : next_pc ge = S (next_pc (t_gen c1))) by apply emit_pc.
  assert (PG3 : next_pc g3 = S (next_pc (t_gen c1))) by (rewrite PC3; exact PE).
  assert (CODE : forall a, a < b -> nth_error (g_code g3) a = nth_error (g_code g0) a).
  { intros a L. rewrite (gr_code _ _ _ G3) by assumption. change (g_code ge0) with (g_code ge).
    rewrite (gr_code _ _ _ G2) by assumption. rewrite P1. apply nth_removelast. lia. }
  assert (META : forall a, a < b -> nth_error (g_instrs g3) a = nth_error (g_instrs g0) a).
  { intros a L. rewrite (gr_meta _ _ _ G3) by assumption. change (g_instrs ge0) with (g_instrs ge).
    rewrite (gr_meta _ _ _ G2) by assumption. rewrite P2. apply nth_removelast. destruct W as (-> & _). lia. }
  assert (W3 : gwf g3).
  { destruct W2 as (A & B & C). split; [|rewrite K3, U3; split; [exact B|exact C]].
    rewrite I3. unfold next_pc in PC3. rewrite PC3. exact A. }
  assert (NB : n - 1 <= b) by lia.
  assert (XC : removelast (ci_code img) ++ map encode (skipn (n - 1) (g_code g3)) = map encode (g_code g3)).
  { rewrite CO, firstn_map. rewrite (firstn_same (n - 1) (g_code g0) (g_code g3)).
    - rewrite <- map_app, firstn_skipn. reflexivity.
    - intros i L. symmetry. apply CODE. lia. }
  assert (XM : removelast (ci_instrs img) ++ skipn (length (ci_instrs img) - 1) (g_instrs g3) = g_instrs g3).
  { rewrite ML, ME. rewrite (firstn_same (n - 1) (g_instrs g0) (g_instrs g3)).
    - apply firstn_skipn.
    - intros i L. symmetry. apply META. lia. }
  destruct (gr_const _ _ _ G2 (ci_constants img ++ nc)) as (nc2 & WC2); [rewrite P3; exact WC|].
  destruct (gr_up _ _ _ G2 (ci_upcalls img ++ nu)) as (nu2 & WU2); [rewrite P4; exact WU|].
  rewrite <- app_assoc in WC2, WU2.
  assert (WC3 : wf (g_constants g3) (ci_constants img ++ nc ++ nc2)) by (rewrite K3; exact WC2).
  assert (WU3 : wf (g_upcalls g3) (ci_upcalls img ++ nu ++ nu2)) by (rewrite U3; exact WU2).
  assert (LG : length (g_code g3) = S (next_pc (t_gen c1))) by exact PG3.
  unfold image_append. cbn [ci_code ci_upcalls ci_constants ci_data ci_instrs ci_callables ci_globals ci_program].
  fold n. rewrite XC, XM, (keys_split _ _ _ WC3), (keys_split _ _ _ WU3).
  assert (XD : ci_data img ++ skipn (length (ci_data img)) (t_data c1) = t_data c1).
  { rewrite GD, DA, <- app_assoc, skipn_app, skipn_all, Nat.sub_diag. reflexivity. }
  rewrite XD.
  destruct GS as [GS1 GS2 _ _ _].
  assert (LAST : nth_error (g_code g3) (next_pc (t_gen c1)) = Some IEof).
  { rewrite C3.
    - apply emit_at.
    - change (g_fixups ge) with (g_fixups (t_gen c1)). rewrite NF1. eapply Forall_impl; [|exact NF2]. cbn. lia. }
  split; [|split; [|split; [|split; [|split]]]].
  - constructor; cbn [k_ctx k_syms set_gen t_gen t_data t_do t_for t_current t_exits ci_code ci_upcalls ci_constants ci_data ci_instrs ci_callables ci_globals ci_program];
      auto.
    + rewrite map_length. lia.
    + rewrite map_length. apply W3.
    + rewrite removelast_firstn_sub. reflexivity.
    + rewrite map_length. destruct W3 as (A & _). rewrite <- A. apply removelast_firstn_sub.
    + exists []. rewrite app_nil_r, app_assoc. rewrite app_assoc in WC3. exact WC3.
    + exists []. rewrite app_nil_r, app_assoc. rewrite app_assoc in WU3. exact WU3.
    + exists []. rewrite app_nil_r. reflexivity.
  - constructor; cbn [ci_code ci_upcalls ci_constants ci_data ci_instrs ci_callables ci_globals ci_program].
    + intros i x L Q. fold n in L. rewrite <- XC. rewrite nth_error_app1 by (rewrite length_removelast; fold n; lia).
      rewrite nth_removelast by (fold n; lia). exact Q.
    + intros i x L Q. rewrite ML in L. fold n in L. rewrite <- XM.
      rewrite nth_error_app1 by (rewrite length_removelast, ML; fold n; lia).
      rewrite nth_removelast by (rewrite ML; fold n; lia). exact Q.
    + intros i x Q. rewrite nth_error_app1; [exact Q|]. apply nth_error_Some. congruence.
    + intros i x Q. rewrite <- XD, nth_error_app1; [exact Q|]. apply nth_error_Some. congruence.
    + intros i x Q. rewrite nth_error_app1; [exact Q|]. apply nth_error_Some. congruence.
    + intros v Q. eapply var_infos_grows; [exact GS2|]. auto.
    + intros v Q. eapply var_infos_grows; [exact GS1|]. auto.
    + rewrite map_length. fold n. lia.
  - reflexivity.
  - reflexivity.
  - apply (map_nth_error encode) in LAST.
    eapply last_at; [|exact LAST]. rewrite map_length. lia.
  - exists (c1, l1), g3. cbn [fst snd s_gen]. do 6 (split; [solve [auto]|]).
    cbn [ci_constants ci_upcalls]. split; [reflexivity|]. split; assumption.
Qed.

(** * A new compiler *)

Lemma load_dims_grows b : forall dims i g g', load_dims dims i g = COk g' -> gwf g -> b <= next_pc g ->
  grows b g g' /\ gwf g' /\ b <= next_pc g' /\ g_fixups g' = g_fixups g.
Proof.
  induction dims as [|d dims IH]; intros i g g' H W L; cbn [load_dims] in H.
  - inv_ok. split; [apply grows_refl|auto].
  - destruct (_ <? _)%N; [|discriminate]. destruct (register_local i) as [r|]; [|discriminate].
    destruct (IH _ _ _ H) as (G & W' & L' & F).
    + eapply grows_gwf; [apply grows_emit|]; eassumption.
    + rewrite emit_pc. lia.
    + split; [|auto]. eapply grows_trans; [apply grows_emit|]; eassumption.
Qed.

Lemma alloc_globals_grows b : forall l g g', alloc_globals l g = COk g' -> gwf g -> b <= next_pc g ->
  grows b g g' /\ gwf g' /\ b <= next_pc g' /\ g_fixups g' = g_fixups g.
Proof.
  induction l as [|[reg [t dims]] l IH]; intros g g' H W L; cbn [alloc_globals] in H.
  - inv_ok. split; [apply grows_refl|auto].
  - inv_ok. destruct (packed_new _ _); [|discriminate].
    destruct (load_dims_grows b _ _ _ _ E W L) as (G1 & W1 & L1 & F1).
    destruct (IH _ _ H) as (G & W' & L' & F).
    + eapply grows_gwf; [apply grows_emit|]; eassumption.
    + rewrite emit_pc. lia.
    + split; [|split; [|split]]; auto.
      * eapply grows_trans; [exact G1|]. eapply grows_trans; [apply grows_emit|]; eassumption.
      * rewrite F. exact F1.
Qed.

Lemma register_globals_grows b : forall defs arrays s arrays' s',
  register_globals defs arrays s = COk (arrays', s') -> gwf (fst s) -> b <= next_pc (fst s) ->
  grows b (fst s) (fst s') /\ gwf (fst s') /\ b <= next_pc (fst s') /\ g_fixups (fst s') = g_fixups (fst s).
Proof.
  induction defs as [|[name k] defs IH]; intros arrays s arrays' s' H W L; cbn [register_globals] in H.
  - inv_ok. split; [apply grows_refl|auto].
  - apply bind_ok in H as (x & _ & H). destruct (put_global _ _ _) as [[gs [reg|e]]|]; try discriminate.
    destruct k as [t init|t dims].
    + apply bind_ok in H as (g & E & H).
      assert (K : grows b (fst s) g /\ g_fixups g = g_fixups (fst s) /\ b <= next_pc g).
      { destruct init as [d|].
        - destruct (etype_eqb _ _); [|discriminate].
          pose proof (grows_value b _ _ _ _ _ E W L). split; [apply H0|]. split; [|lia].
          destruct d; cbn [emit_value] in E; unfold get_constant in E; inv_ok; try reflexivity;
            repeat match goal with
            | E : context [match ?x with _ => _ end] |- _ => destruct x; try discriminate; inv_ok
            end; reflexivity.
        - inv_ok. unfold emit_default. destruct t; split; try (split; [reflexivity|rewrite emit_pc; lia]); apply grows_emit; assumption. }
      destruct K as (K1 & K2 & K3). destruct (IH _ _ _ _ H) as (G & W' & L' & F); cbn [fst].
      * eapply grows_gwf; eassumption.
      * exact K3.
      * cbn [fst] in *. split; [eapply grows_trans; eassumption|]. split; [exact W'|]. split; [exact L'|congruence].
    + apply (IH _ _ _ _ H); assumption.
Qed.

Lemma compiler_new_synced upcalls defs k : compiler_new upcalls defs = COk k -> synced k cimage_default.
Proof.
  unfold compiler_new, prepare_globals. intros H. apply bind_ok in H as ([g gs] & H & K).
  apply COk_inj in K. subst k. apply bind_ok in H as ([arrays [g1 gs1]] & R & H). cbn beta iota in H.
  apply bind_ok in H as (g2 & A & H). apply COk_inj, pair_inj in H as [<- <-].
  assert (W : gwf codegen_new) by (split; [reflexivity|split; exists []; apply wf_empty]).
  destruct (register_globals_grows 0 _ _ _ _ _ R W) as (G1 & W1 & L1 & F1); [cbn; lia|].
  cbn [fst] in *.
  destruct (alloc_globals_grows 0 _ _ _ A W1 L1) as (G2 & W2 & L2 & F2).
  assert (G3 : grows 0 g2 (emit IEof (0, 0)%N g2)) by (apply grows_emit; assumption).
  assert (W3 : gwf (emit IEof (0, 0)%N g2)) by (eapply grows_gwf; eassumption).
  constructor; cbn [k_ctx k_syms set_gen t_gen t_data t_do t_for t_current t_exits tctx_new cimage_default ci_code ci_upcalls ci_constants ci_data ci_instrs ci_globals ci_program length];
    try reflexivity; auto.
  - cbn. rewrite F2, F1. reflexivity.
  - change (length (g_code (emit IEof (0, 0)%N g2))) with (next_pc (emit IEof (0, 0)%N g2)). rewrite emit_pc. lia.
  - apply W3.
  - apply W3.
  - exists []. reflexivity.
  - intros v [].
Qed.

Lemma compile_more_fails k img src o k' img' : compile_more k img src = (o, k', img') ->
  o <> Compiled -> k' = k /\ img' = img.
Proof.
  unfold compile_more. intros H N. destruct (compile_source _ _ _ _) as [[c l] [d|e|]];
    apply pair_inj in H as [H <-]; apply pair_inj in H as [<- <-]; auto. contradiction.
Qed.

Lemma session_synced upcalls defs srcs k img : session upcalls defs srcs k img -> synced k img.
Proof.
  induction 1 as [k H|srcs src k img o k' img' _ IH H].
  - eapply compiler_new_synced. exact H.
  - destruct o.
    + eapply compile_more_synced; eassumption.
    + destruct (compile_more_fails _ _ _ _ _ _ H) as [-> ->]; [discriminate|exact IH].
    + destruct (compile_more_fails _ _ _ _ _ _ H) as [-> ->]; [discriminate|exact IH].
Qed.

(** * A paused machine *)

Lemma resolve_kept p cs cs' h s : kept cs cs' -> resolve_string p cs h = Some s ->
  resolve_string p cs' h = Some s.
Proof.
  intros K. destruct p; cbn [resolve_string]; [|auto].
  destruct (nth_error cs _) as [d|] eqn:E; [|discriminate]. rewrite (K _ _ E). auto.
Qed.

Lemma deref_kept v cs cs' h s : kept cs cs' -> deref_text v cs h = Some s -> deref_text v cs' h = Some s.
Proof. intros K. unfold deref_text. destruct (ptr_from v); [|discriminate]. apply resolve_kept. exact K. Qed.

Section Steps.
Variable powf : N -> N -> N.

Lemma text_op_kept c h cs cs' d a b op : kept cs cs' ->
  do_binary_text_op c h cs d a b op <> RPanic ->
  do_binary_text_op c h cs' d a b op = do_binary_text_op c h cs d a b op.
Proof.
  intros K H. unfold do_binary_text_op in *.
  destruct (deref_text (get_reg c a) cs h) as [x|] eqn:E1; [|contradiction].
  destruct (deref_text (get_reg c b) cs h) as [y|] eqn:E2; [|contradiction].
  rewrite (deref_kept _ _ _ _ _ K E1), (deref_kept _ _ _ _ _ K E2). reflexivity.
Qed.

Lemma concat_kept c h cs cs' d a b : kept cs cs' ->
  do_concat c h cs d a b <> RPanic -> do_concat c h cs' d a b = do_concat c h cs d a b.
Proof.
  intros K H. unfold do_concat in *.
  destruct (deref_text (get_reg c a) cs h) as [x|] eqn:E1; [|contradiction].
  destruct (deref_text (get_reg c b) cs h) as [y|] eqn:E2; [|contradiction].
  rewrite (deref_kept _ _ _ _ _ K E1), (deref_kept _ _ _ _ _ K E2). reflexivity.
Qed.

Lemma dispatch_kept img img' c h i : kept (i_constants img) (i_constants img') ->
  dispatch powf img c h i <> RPanic -> dispatch powf img' c h i = dispatch powf img c h i.
Proof.
  intros K H. destruct i; try reflexivity.
  - cbn [dispatch] in *. destruct o; try reflexivity; cbn [do_op3] in *;
      (apply text_op_kept; assumption) || (apply concat_kept; assumption).
  - cbn [dispatch] in *. destruct (nth_error (i_constants img) _) as [d|] eqn:E; [|contradiction].
    rewrite (K _ _ E). reflexivity.
Qed.

Lemma step_kept old new c h : only_appended old new -> S (c_pc c) < length (ci_code old) ->
  length (ci_instrs old) = length (ci_code old) ->
  step powf (runnable old) c h <> RPanic ->
  step powf (runnable new) c h = step powf (runnable old) c h.
Proof.
  intros A L M H. unfold step, stmt_start, fetch_exec in *. cbn [runnable i_code i_meta] in *.
  assert (F : forall P : Prop, (match nth_error (ci_code old) (c_pc c) with
    | Some w => match decode w with Some i => dispatch powf (runnable old) c h i | None => RPanic end
    | None => RPanic end <> RPanic -> match nth_error (ci_code new) (c_pc c) with
    | Some w => match decode w with Some i => dispatch powf (runnable new) c h i | None => RPanic end
    | None => RPanic end = match nth_error (ci_code old) (c_pc c) with
    | Some w => match decode w with Some i => dispatch powf (runnable old) c h i | None => RPanic end
    | None => RPanic end)).
  { intros _ K. destruct (nth_error (ci_code old) (c_pc c)) as [w|] eqn:E; [|contradiction].
    rewrite (oa_code _ _ A _ _ L E). destruct (decode w); [|reflexivity].
    apply dispatch_kept; [apply A|exact K]. }
  destruct (c_yield c); [|apply (F True H)].
  destruct (nth_error (ci_instrs old) (c_pc c)) as [m|] eqn:E; [|contradiction].
  assert (L2 : S (c_pc c) < length (ci_instrs old)) by lia.
  rewrite (oa_meta _ _ A _ _ L2 E). destruct (m_stmt_start m); [reflexivity|apply (F True H)].
Qed.
End Steps.

(** * Only the inputs that compile matter *)

Lemma feed_accepted srcs : forall k img os k' img', feed srcs k img = (os, k', img') ->
  feed (accepted srcs os) k img = (repeat Compiled (length (accepted srcs os)), k', img').
Proof.
  induction srcs as [|s srcs IH]; intros k img os k' img' H; cbn [feed] in H.
  - apply pair_inj in H as [H <-]. apply pair_inj in H as [<- <-]. reflexivity.
  - destruct (compile_more k img s) as [[o k1] img1] eqn:E.
    destruct (feed srcs k1 img1) as [[os1 k2] img2] eqn:F.
    apply pair_inj in H as [H <-]. apply pair_inj in H as [<- <-]. cbn [accepted].
    destruct o; cbn [succeeded].
    + cbn [feed length repeat]. rewrite E, (IH _ _ _ _ _ F). reflexivity.
    + destruct (compile_more_fails _ _ _ _ _ _ E) as [-> ->]; [discriminate|]. apply (IH _ _ _ _ _ F).
    + destruct (compile_more_fails _ _ _ _ _ _ E) as [-> ->]; [discriminate|]. apply (IH _ _ _ _ _ F).
Qed.

(** * Many inputs *)

Lemma only_appended_refl i : only_appended i i.
Proof. constructor; try (intros ?; auto); try (intros ? ? ?; auto). lia. Qed.

Lemma kept_trans {A} (a b c : list A) : kept a b -> kept b c -> kept a c.
Proof. intros H K i x E. apply K, H, E. Qed.

Lemma kept_but_last_trans {A} (a b c : list A) : kept_but_last a b -> length a <= length b ->
  kept_but_last b c -> kept_but_last a c.
Proof. intros H L K i x Q E. apply K; [lia|]. apply H; assumption. Qed.

Lemma only_appended_trans a b c : only_appended a b -> only_appended b c ->
  length (ci_instrs a) = length (ci_code a) -> length (ci_instrs b) = length (ci_code b) ->
  only_appended a c.
Proof.
  intros H K La Lb. pose proof (oa_longer _ _ H). pose proof (oa_longer _ _ K).
  constructor.
  - eapply kept_but_last_trans; [apply H|assumption|apply K].
  - eapply kept_but_last_trans; [apply H|lia|apply K].
  - eapply kept_trans; [apply H|apply K].
  - eapply kept_trans; [apply H|apply K].
  - eapply kept_trans; [apply H|apply K].
  - intros v I. apply K, H, I.
  - intros v I. apply K, H, I.
  - lia.
Qed.

Lemma more_appended k img src o k' img' : synced k img -> compile_more k img src = (o, k', img') ->
  synced k' img' /\ only_appended img img'.
Proof.
  intros Y E. destruct o.
  - destruct (compile_more_synced _ _ _ _ _ Y E) as (A & B & _). auto.
  - destruct (compile_more_fails _ _ _ _ _ _ E) as [-> ->]; [discriminate|]. split; [exact Y|apply only_appended_refl].
  - destruct (compile_more_fails _ _ _ _ _ _ E) as [-> ->]; [discriminate|]. split; [exact Y|apply only_appended_refl].
Qed.

Lemma feed_appended srcs : forall k img os k' img', synced k img -> feed srcs k img = (os, k', img') ->
  synced k' img' /\ only_appended img img'.
Proof.
  induction srcs as [|s srcs IH]; intros k img os k' img' Y H; cbn [feed] in H.
  - apply pair_inj in H as [H <-]. apply pair_inj in H as [<- <-]. split; [exact Y|apply only_appended_refl].
  - destruct (compile_more k img s) as [[o k1] img1] eqn:E.
    destruct (feed srcs k1 img1) as [[os1 k2] img2] eqn:F.
    apply pair_inj in H as [H <-]. apply pair_inj in H as [<- <-].
    destruct (more_appended _ _ _ _ _ _ Y E) as [Y1 A1]. destruct (IH _ _ _ _ _ Y1 F) as [Y2 A2].
    split; [exact Y2|]. eapply only_appended_trans; eauto; [apply Y|apply Y1].
Qed.

(** The end marker: an image that something was compiled into ends with it, and so does the
    empty image. *)
Lemma session_ends upcalls defs srcs k img : session upcalls defs srcs k img ->
  last (ci_code img) 0%N = encode IEof /\ 1 <= length (ci_code img) /\
  length (ci_instrs img) = length (ci_code img).
Proof.
  intros H. split; [|destruct (session_synced _ _ _ _ _ H); lia].
  induction H as [k H|srcs src k img o k' img' S IH H]; [reflexivity|].
  destruct o.
  - eapply compile_more_synced; [|exact H]. eapply session_synced. exact S.
  - destruct (compile_more_fails _ _ _ _ _ _ H) as [-> ->]; [discriminate|exact IH].
  - destruct (compile_more_fails _ _ _ _ _ _ H) as [-> ->]; [discriminate|exact IH].
Qed.
