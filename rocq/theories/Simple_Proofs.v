(** The statements without parts. *)
From Verif Require Import Base Bytecode_Model Bytecode_Spec Bytecode_Proofs Mem_Model Mem_Spec Mem_Proofs Num_Model
  Vm_Model Vm_Spec Vm_Proofs Ids_Model Ids_Spec Ids_Proofs Ast_Model Syms_Model Syms_Proofs Codegen_Model
  Codegen_Proofs Exprs_Model Exprs_Proofs Top_Model Top_Proofs Layout_Proofs Args_Spec Eval_Spec Eval_Proofs Call_Spec
  Run_Proofs Call_Proofs Exec_Spec Exec_Proofs Flow_Proofs.

Lemma put_global_table l key p l' r : ls_put_global l key p = Some (l', Ok r) ->
  id_get ustr_eqb (gs_vars (ls_global l)) key = None /\
  exists i, register_global i = Some r /\ gs_vars (ls_global l') = gs_vars (ls_global l) ++ [(key, (p, i))] /\
    ls_locals l' = ls_locals l.
Proof.
  unfold ls_put_global, put_global.
  destruct (put_var key p (gs_vars (ls_global l)) register_global ScGlobal) as [[t [r0|?]]|] eqn:E; try discriminate.
  intros H. injection H as <- <-. apply put_var_grows in E as (G & M & ->). split; [exact G|]. eexists. split; [exact M|]. split; reflexivity.
Qed.

(** What the machine does with arrays. *)
Lemma ptr_heap_inj i j : (i < 2 ^ 24)%N -> (j < 2 ^ 24)%N -> ptr_for_heap i = ptr_for_heap j -> i = j.
Proof. intros A B E. assert (X : ptr_from (ptr_for_heap i) = ptr_from (ptr_for_heap j)) by (rewrite E; reflexivity). rewrite !ptr_from_heap in X by assumption. congruence. Qed.
Lemma heap_kept_more h h' : heap_ok h -> (forall j d, heap_get h j = Some d -> heap_get h' j = Some d) ->
  (heap_len h' <= 2 ^ 24)%N -> heap_kept h h'.
Proof. intros [A _] K B. split; [|exact K]. split; [exact (K 0%N _ A)|exact B]. Qed.
Lemma alloc_array_full powf img c h d packed t first zs : packed_subtype packed = Some t ->
  N.to_nat (packed_ndims packed) = length zs -> holds_subs c first zs -> Forall (fun z => (0 < z)%Z) zs ->
  (product (map Z.to_N zs) < 2 ^ 60)%N -> (2 ^ 24 <= heap_len h \/ h_max h <= heap_len h)%N ->
  dispatch powf img c h (IAllocArray d packed first) = RStop (SException (c_pc c) XHeap) c h.
Proof.
  intros PS PN (A & B & H) F PL FULL.
  assert (RT : register_to_parts first = (false, first - 64)%N).
  { unfold register_to_parts, max_global. destruct (N.ltb_spec first 64); [lia|reflexivity]. }
  cbn [Vm_Model.dispatch]. unfold do_alloc_array. rewrite PS, RT, PN. cbn [snd].
  destruct (read_dims_ok powf c (first - 64)%N zs 0) as [[_ E]|(k & z & (Z1 & Z2 & _) & _)].
  - lia.
  - exact H.
  - rewrite E, (dims_total_product powf). destruct (N.leb_spec (2 ^ 60)%N (product (map Z.to_N zs))); [lia|]. cbv zeta.
    rewrite heap_push_nonempty by discriminate.
    destruct (N.leb_spec (2 ^ 24)%N (heap_len h)); [reflexivity|].
    destruct (N.leb_spec (h_max h) (heap_len h)); [reflexivity|lia].
  - exfalso. rewrite Forall_forall in F. apply nth_error_In in Z1. specialize (F _ Z1). lia.
Qed.
Lemma store_exactly powf img c h arr val first i dims vs subs : (i < 2 ^ 24)%N -> get_reg c arr = ptr_for_heap i ->
  heap_get h i = Some (HArray dims vs) -> N.of_nat (length vs) = product dims -> holds_subs c first subs ->
  valid_subs dims subs ->
  dispatch powf img c h (I3 StoreArray arr val first) =
    RNext (Vm_Model.next_pc c) (heap_set h i (HArray dims (upd vs (N.to_nat (position dims subs)) (get_reg c val)))).
Proof.
  intros LI G H LV HS V. pose proof (valid_subs_length _ _ V) as LS. pose proof (position_lt _ _ V) as PL.
  cbn [Vm_Model.dispatch do_op3]. unfold do_store_array.
  rewrite (resolve_ok powf c arr first h i dims vs subs), flat_index_ok, H by assumption.
  destruct (N.ltb_spec (position dims subs) (N.of_nat (length vs))); [reflexivity|lia].
Qed.

Section Simple.
Variable powf : N -> N -> N.
Variable img : image.
Context {W : Type}.
Variable upcall : N -> N -> nat -> image -> ctx -> heap -> W -> option (upcall_result W).
Variable L : lsyms.
Variable hidden : N -> option hdatum.
Variable calls : ustr -> list given -> env W -> res vm_error (option cdatum) -> env W -> Prop.
Variable ups : list ustr.
Variable entry : point -> N -> Prop.
Hypothesis L_ok : tables_ok L.
Hypothesis L_ns : no_shadowing L.
Hypothesis L_ap : names_apart L.
Hypothesis functions_ok : functions_obey powf img upcall L hidden calls ups entry.
Hypothesis calls_local : forall k gs s r s' k', calls k gs s r s' -> is_shared L k' = false -> (r = Ok None -> forall t, ~ In (GRef k' t) gs) -> vals s k' = None -> vals s' k' = None.
Notation cs := (i_constants img).
Notation ty := (declared L).
Notation callable := (get_callable (ls_global L)).
Notation state ls := (holding L hidden cs ls None).
Notation holding := (holding L hidden cs).
Notation has := (has img L ups entry).
Notation loaded := (loaded img ups entry).
Notation go := (go powf img upcall).
Notation greach := (greach powf img upcall).
Notation stuck := (stuck powf img upcall).
Notation gfails := (gfails powf img upcall).
Notation evals_as := (evals_as powf callable (is_variable L) calls).
Notation delivers := (delivers powf callable (is_variable L) calls).
Notation integers := (integers powf callable (is_variable L) calls).
Notation sim := (sim powf img upcall L hidden).
Implicit Types (h : mem W) (s : env W).

(** ** DIM *)

Lemma empty_text_deref h : heap_ok h -> deref_text (empty_text_ptr h) cs h = Some [].
Proof.
  intros O. pose proof (heap_push_text_deref h [] h (empty_text_ptr h) cs O) as K. apply K. reflexivity.
Qed.

Lemma dim_register_new name pos sh p l0 r l : dim_register name pos sh p l0 = COk (r, l) -> ext l L ->
  ext l0 l /\ get_local_or_global l (mkVarRef name None) = Ok (r, p).
Proof.
  intros D XL. set (w := mkVarRef name None).
  assert (NSl : no_shadowing l) by (eapply shadow_prefix; [exact XL|exact L_ns]).
  unfold dim_register in D. destruct (get_callable _ _); [discriminate D|]. change (symkey name) with (symkey (vr_name w)) in D. destruct sh.
  - destruct (contains_global _ _); [discriminate D|]. destruct (ls_put_global _ _ _) as [[l1 [r0|?]]|] eqn:PG; try discriminate D.
    apply COk_inj in D. apply pair_inj in D as [<- <-].
    pose proof (ext_grows _ _ (put_global_grows _ _ _ _ _ PG)) as X. apply put_global_table in PG as (NK & i & RI & GG & LL).
    assert (NL : id_get ustr_eqb (ls_locals l0) (symkey (vr_name w)) = None).
    { destruct (NSl (symkey (vr_name w))) as [Q|Q]; [rewrite LL in Q; exact Q|]. rewrite GG, (get_app_none _ _ _ NK) in Q. discriminate Q. }
    split; [exact X|]. unfold get_local_or_global, get_global, get_var. rewrite LL, NL, GG, (get_app_none _ _ _ NK), RI. reflexivity.
  - destruct (contains_local _ _); [discriminate D|]. destruct (put_local _ _ _) as [[l1 [r0|?]]|] eqn:PG; try discriminate D.
    apply COk_inj in D. apply pair_inj in D as [<- <-]. apply put_local_grows in PG as (LG & NK & i & RI & LL & GG & _).
    split; [apply ext_grows, LG|]. unfold get_local_or_global, get_global, get_var. rewrite LL, (get_app_none _ _ _ NK), RI. reflexivity.
Qed.
Lemma by_now_lookup l v r p : ext l L -> get_local_or_global l v = Ok (r, p) -> get_local_or_global (by_now L l) v = Ok (r, p).
Proof.
  intros X G. rewrite <- G. apply (kn_lookup _ _ (knowing_ext L L_ok L_ns L_ap _ X)). rewrite G. intros U; exact U.
Qed.

(** A variable gets its default value. *)
Lemma default_sim l v r t pos g c h s : ext l L -> get_local_or_global l v = Ok (r, PScalar t) ->
  loaded (emit (default_instr r t) pos g) (next_pc g) -> state l c h s -> c_pc c = next_pc g ->
  exists c', go c h c' h /\ c_pc c' = S (next_pc g) /\ state l c' h (store s (ascii_upper (vr_name v)) (Scalar (default_value t))).
Proof.
  intros XL G LD ST PC. pose proof (knowing_ext L L_ok L_ns L_ap _ XL) as K. pose proof (hd_fp _ _ _ _ _ _ _ _ ST) as FP.
  assert (FT : fetched img (c_pc c) (default_instr r t)).
  { rewrite PC. eapply loaded_at; [exact LD|apply le_n|destruct t; discriminate]. }
  assert (DI : exists raw, dispatch powf img c h (default_instr r t) = RNext (Vm_Model.next_pc (set_reg c r raw)) h /\
     stands_for cs h t raw (default_value t)).
  { destruct t; cbn [default_instr default_value stands_for]; (eexists; split; [reflexivity|]); (split; [reflexivity|]).
    - reflexivity.
    - reflexivity.
    - split; [split; discriminate|reflexivity].
    - apply empty_text_deref, ST. }
  destruct DI as (raw & DI & SF).
  destruct (gwrite powf img upcall L hidden l (Some r) K (c_fp c) r r c h s _ raw (holding_skip _ _ _ _ _ _ _ _ ST) FT DI (or_introl eq_refl) (or_introl eq_refl)) as [R2 H2].
  exists (Vm_Model.next_pc (set_reg c r raw)). split; [eapply go_reach; [exact R2|apply le_n|exact FP]|]. split.
  - change (S (c_pc c) = S (next_pc g)). rewrite PC. reflexivity.
  - eapply holding_put; [apply (kn_ok _ _ K)|exact H2|apply by_now_lookup; eassumption|]. rewrite get_written. exact SF.
Qed.

Lemma dim_sim name pos sh t x x' c h s : compile_dim name pos sh t x = COk x' -> ok x -> has x x' ->
  state (snd x) c h s -> c_pc c = s_pc x -> sim x' c h (store s (ascii_upper name) (Scalar (default_value t))) SigNormal.
Proof.
  intros H O HS ST PC. unfold compile_dim in H. apply bind_ok in H as ([r l] & D & H). apply COk_inj in H.
  assert (SX : snd x' = l) by (subst x'; reflexivity).
  assert (XL : ext l L) by (rewrite <- SX; apply HS).
  destruct (dim_register_new _ _ _ _ _ _ _ D XL) as [X GW].
  assert (SG : s_gen x' = emit (default_instr r t) pos (s_gen x)) by (subst x'; reflexivity).
  assert (LD : loaded (emit (default_instr r t) pos (s_gen x)) (s_pc x)) by (rewrite <- SG; apply HS).
  destruct (default_sim _ _ _ _ _ _ c h s XL GW LD) as (c' & G & P & S1); [eapply state_ext; eassumption|exact PC|].
  eapply sim_normal; [exact L_ns|exact G| |exact S1|rewrite SX; apply ext_refl|apply HS].
  rewrite P. unfold s_pc. rewrite SG, emit_pc. reflexivity.
Qed.

(** ** Arrays *)

(** A variable gets an array of its own. *)
Lemma holding_put_array ls c h s v r t n dims at_ : tables_ok (by_now L ls) -> holding ls (Some r) c h s ->
  get_local_or_global (by_now L ls) v = Ok (r, PArray t n) ->
  represents cs h (PArray t n) (get_reg c r) (Elements t dims at_) ->
  (forall v' r' p' t' dims' at', seen L ls (Some r) s v' r' p' (Elements t' dims' at') -> get_reg c r' <> get_reg c r) ->
  (forall i, (i < 2 ^ 24)%N -> get_reg c r = ptr_for_heap i -> hidden i = None) ->
  state ls c h (store s (ascii_upper (vr_name v)) (Elements t dims at_)).
Proof.
  intros TB [A1 A2 A3 A4 A5 A6 A7 A8 A9 A10] G RP FR HI.
  assert (SE : forall v' r' p' x', seen L ls None (store s (ascii_upper (vr_name v)) (Elements t dims at_)) v' r' p' x' ->
    (ascii_upper (vr_name v) = ascii_upper (vr_name v') /\ x' = Elements t dims at_ /\ r' = r /\ p' = PArray t n) \/ seen L ls (Some r) s v' r' p' x').
  { intros v' r' p' x' (S1 & S2 & _). cbn [store vals] in S1.
    destruct (ustr_eqb (ascii_upper (vr_name v)) (ascii_upper (vr_name v'))) eqn:Q.
    - left. injection S1 as <-. apply ustr_eqb_eq in Q. split; [exact Q|].
      destruct (lookup_same _ _ _ _ _ Q G) as [K|(e & K & _)]; rewrite K in S2; [|discriminate S2].
      apply Ok_pair in S2 as [<- <-]. auto.
    - right. split; [exact S1|]. split; [exact S2|]. intros E. injection E as <-.
      rewrite (lookup_inj _ _ _ _ _ _ TB G S2), ustr_eqb_refl in Q. discriminate Q. }
  constructor; auto.
  - intros v' x V. cbn [store vals] in V.
    destruct (ustr_eqb (ascii_upper (vr_name v)) (ascii_upper (vr_name v'))) eqn:Q; [|eapply A6, V].
    apply ustr_eqb_eq in Q. destruct (lookup_same _ _ _ _ _ Q G) as [K|(e & K & NU)]; rewrite K; [exact Logic.I|].
    destruct e; try exact Logic.I. destruct NU. exact Logic.I.
  - intros v' r' p' x' S1. destruct (SE _ _ _ _ S1) as [(_ & -> & -> & ->)|S2]; [exact RP|]. eapply A7, S2.
  - intros v1 r1 p1 t1 dims1 at1 v2 r2 p2 t2 dims2 at2 S1 S2 E.
    destruct (SE _ _ _ _ S1) as [(K1 & _ & -> & _)|S1'], (SE _ _ _ _ S2) as [(K2 & _ & -> & _)|S2'].
    + congruence.
    + destruct (FR _ _ _ _ _ _ S2'). symmetry. exact E.
    + destruct (FR _ _ _ _ _ _ S1'). exact E.
    + eapply A8; eassumption.
  - intros v' r' p' t' dims' at' i S1 LI E. destruct (SE _ _ _ _ S1) as [(_ & _ & -> & _)|S2]; [apply HI; assumption|]. eapply A10; eassumption.
Qed.

(** An element of an array changes. *)
Lemma holding_set_element ls c h s v r t n dims at_ i vs zs raw d : tables_ok (by_now L ls) -> state ls c h s ->
  vals s (ascii_upper (vr_name v)) = Some (Elements t dims at_) ->
  get_local_or_global (by_now L ls) v = Ok (r, PArray t n) -> (i < 2 ^ 24)%N -> get_reg c r = ptr_for_heap i ->
  heap_get h i = Some (HArray dims vs) -> N.of_nat (length vs) = product dims -> valid_subs dims zs -> stands_for cs h t raw d ->
  texts_kept h (heap_set h i (HArray dims (upd vs (N.to_nat (position dims zs)) raw))) /\
  state ls c (mkMem (heap_set h i (HArray dims (upd vs (N.to_nat (position dims zs)) raw))) (m_world h))
    (store s (ascii_upper (vr_name v)) (Elements t dims (change_element at_ zs d))).
Proof.
  intros TB [A1 A2 A3 A4 A5 A6 A7 A8 A9 A10] V G LI GR HG LV VS SF.
  set (h' := heap_set h i (HArray dims (upd vs (N.to_nat (position dims zs)) raw))).
  pose proof (heap_get_lt powf _ _ _ HG) as HL. pose proof (position_lt _ _ VS) as PL.
  assert (GS : forall j, heap_get h' j = if (j =? i)%N then Some (HArray dims (upd vs (N.to_nat (position dims zs)) raw)) else heap_get h j)
    by (intros j; apply (heap_get_set powf); exact HL).
  assert (TK : texts_kept h h').
  { assert (TX : forall j x, heap_get h j = Some (HText x) -> heap_get h' j = Some (HText x)).
    { intros j x E. rewrite GS. destruct (N.eqb_spec j i) as [->|]; [congruence|exact E]. }
    split; [|exact TX]. destruct A4 as [B1 B2]. split; [exact (TX 0%N _ B1)|].
    unfold heap_len, h', heap_set in *. cbn [h_data]. rewrite upd_length. exact B2. }
  split; [exact TK|].
  assert (SV : seen L ls None s v r (PArray t n) (Elements t dims at_)) by (split; [exact V|]; split; [exact G|discriminate]).
  assert (SE : forall v' r' p' x', seen L ls None (store s (ascii_upper (vr_name v)) (Elements t dims (change_element at_ zs d))) v' r' p' x' ->
    (ascii_upper (vr_name v) = ascii_upper (vr_name v') /\ x' = Elements t dims (change_element at_ zs d) /\ r' = r /\ p' = PArray t n) \/
    (ascii_upper (vr_name v) <> ascii_upper (vr_name v') /\ seen L ls None s v' r' p' x')).
  { intros v' r' p' x' (S1 & S2 & _). cbn [store vals] in S1.
    destruct (ustr_eqb (ascii_upper (vr_name v)) (ascii_upper (vr_name v'))) eqn:Q.
    - left. injection S1 as <-. apply ustr_eqb_eq in Q. split; [exact Q|].
      destruct (lookup_same _ _ _ _ _ Q G) as [K|(e & K & _)]; rewrite K in S2; [|discriminate S2].
      apply Ok_pair in S2 as [<- <-]. auto.
    - right. split; [intros E; rewrite E, ustr_eqb_refl in Q; discriminate Q|]. split; [exact S1|]. split; [exact S2|discriminate]. }
  constructor; cbn [m_heap m_world]; auto.
  - apply TK.
  - intros v' x V'. cbn [store vals] in V'.
    destruct (ustr_eqb (ascii_upper (vr_name v)) (ascii_upper (vr_name v'))) eqn:Q; [|eapply A6, V'].
    apply ustr_eqb_eq in Q. destruct (lookup_same _ _ _ _ _ Q G) as [K|(e & K & NU)]; rewrite K; [exact Logic.I|].
    destruct e; try exact Logic.I. destruct NU. exact Logic.I.
  - intros v' r' p' x' S1. destruct (SE _ _ _ _ S1) as [(_ & -> & -> & ->)|[NE S2]].
    + pose proof (A7 _ _ _ _ SV) as RP. cbn [represents] in RP |- *. destruct RP as (B1 & B2 & i0 & vs0 & B3 & B4 & B5 & B6 & B7).
      assert (i0 = i) as -> by (apply ptr_heap_inj; [assumption|assumption|congruence]).
      assert (vs0 = vs) as -> by congruence. split; [exact B1|]. split; [exact B2|].
      exists i, (upd vs (N.to_nat (position dims zs)) raw). split; [exact LI|]. split; [exact GR|].
      split; [rewrite GS, N.eqb_refl; reflexivity|]. split; [rewrite upd_length; exact LV|].
      intros subs VS'. unfold change_element. destruct (list_eq_dec Z.eq_dec zs subs) as [<-|NE].
      * exists raw. split; [apply upd_nth_same; clear -PL LV; lia|]. eapply stands_texts; eassumption.
      * destruct (B7 subs VS') as (w & E & S2). exists w. split; [|eapply stands_texts; eassumption].
        rewrite upd_nth_other; [exact E|]. intros Q. apply NE. eapply position_inj; try eassumption. clear -Q. lia.
    + pose proof (A7 _ _ _ _ S2) as RP. destruct x' as [d'|t' dims' at'], p' as [t'' n'|t'']; cbn [represents] in *; auto.
      * eapply stands_texts; eassumption.
      * destruct RP as (B1 & B2 & j & vs' & B3 & B4 & B5 & B6 & B7). split; [exact B1|]. split; [exact B2|]. exists j, vs'.
        split; [exact B3|]. split; [exact B4|]. split; [|split; [exact B6|]].
        -- rewrite GS. destruct (N.eqb_spec j i) as [->|]; [|exact B5]. destruct NE.
           eapply A8; [exact SV|exact S2|congruence].
        -- intros subs VS'. destruct (B7 subs VS') as (w & E & S3). exists w. split; [exact E|]. eapply stands_texts; eassumption.
  - intros v1 r1 p1 t1 dims1 at1 v2 r2 p2 t2 dims2 at2 S1 S2 E.
    destruct (SE _ _ _ _ S1) as [(K1 & _ & -> & _)|[N1 S1']], (SE _ _ _ _ S2) as [(K2 & _ & -> & _)|[N2 S2']].
    + congruence.
    + destruct N2. eapply A8; eassumption.
    + destruct N1. symmetry. eapply A8; eassumption.
    + eapply A8; eassumption.
  - intros j d' E. rewrite GS. destruct (N.eqb_spec j i) as [->|]; [|apply A9, E].
    rewrite (A10 _ _ _ _ _ _ i SV LI GR) in E. discriminate E.
  - intros v' r' p' t' dims' at' j S1 LJ E. destruct (SE _ _ _ _ S1) as [(_ & _ & -> & _)|[_ S2]]; eapply A10; eassumption.
Qed.

(** Integers in consecutive temporaries. *)
Lemma integers_length es : forall s zs s', integers s es (Ok zs) s' -> length zs = length es.
Proof.
  unfold Exec_Spec.integers. induction es as [|e es IH]; intros s zs s' DV; cbn [subscripts map] in DV.
  - inversion DV as [? ? X0 X1| | |]. destruct zs; [reflexivity|discriminate].
  - inversion DV as [|? ? ? ? g s2 gs ? GV D X| |]; subst.
    inversion GV as [? ? ? ? d ? EA Y| | | | |]; subst. destruct zs as [|z zs]; [discriminate|]. cbn [app map] in *.
    match goal with Q : GValue d :: gs = GValue (CInt z) :: _ |- _ => injection Q as -> -> end.
    cbn [length]. f_equal. eapply IH. exact D.
Qed.

Lemma integers_run ls es sc pos st f sc' st' : ext ls L ->
  integer_exprs (map (fun e => Some (e, compile_expr ls e)) es) sc pos None st = COk (Some f, sc', st') ->
  sc_nlocals sc = N.of_nat (id_len (ls_locals ls)) -> gwf (fst st) -> Forall in32 es ->
  grows (next_pc (fst st)) (fst st) (fst st') /\ f = (64 + N.of_nat (id_len (ls_locals ls)) + ts_next (snd st))%N /\
  forall c h s r s', loaded (fst st') (next_pc (fst st)) -> state ls c h s -> c_pc c = next_pc (fst st) -> integers s es r s' ->
    stuck c h \/
    match r with
    | Ok zs => exists c' h', greach ls None (top_slot ls c (snd st)) f c h c' h' /\ c_pc c' = next_pc (fst st') /\
        state ls c' h' s' /\ holds_subs c' f zs
    | Err e => gfails c h e (world s')
    end.
Proof.
  intros XL H NL W0 LO. pose proof (knowing_ext L L_ok L_ns L_ap _ XL) as K.
  set (args := map (fun e => (Some e, SepEnd, pos)) es : list argspan).
  assert (AE : arg_exprs args = es).
  { unfold args, arg_exprs. clear. induction es as [|e es IH]; cbn [map flat_map app]; [reflexivity|]. rewrite IH. reflexivity. }
  assert (CL : map (fun e => Some (e, compile_expr ls e)) es = map (fun a : carg => fst (fst a)) (map (with_closure ls) args)).
  { unfold args. rewrite !map_map. reflexivity. }
  rewrite CL in H.
  assert (WK : Forall (arg_all (works powf img upcall L hidden calls ups entry ls None)) args).
  { unfold args. clear -functions_ok calls_local K. induction es; constructor; [|assumption]. cbn [arg_all]. apply expr_works; assumption. }
  destruct (integers_sim powf img upcall L hidden calls ups entry calls_local ls None K args _ _ _ _ _ _ _ H NL WK W0) as (DO & LX & BD & O).
  destruct (DO W0) as [GA XA]. pose proof (gr_len _ _ _ GA) as LA.
  split; [exact GA|].
  assert (NE : args <> []) by (intros E; rewrite E in O; discriminate O).
  assert (O' : f = (64 + N.of_nat (id_len (ls_locals ls)) + ts_next (snd st))%N).
  { clear -O NE. destruct args; [destruct NE; reflexivity|]. congruence. }
  split; [exact O'|]. specialize (BD NE).
  intros c h s r s' LD ST PC DV. pose proof (temp_index _ c _ _ O') as FI.
  assert (AR : arrived img L hidden ls None (reg_index c f) st [] c h s).
  { split; [exact PC|]. split; [exact ST|]. split; [intros k g E; destruct k; discriminate E|].
    rewrite FI. split; [cbn [length]; clear; lia|]. unfold top_slot. clear; lia. }
  assert (FW : Forall (fine_want L ls None s) (subscripts (arg_exprs args))).
  { apply fine_subscripts. unfold args. clear -LO. induction LO; constructor; [|assumption]. cbn [arg_all]. apply fine_none. assumption. }
  assert (DV' : exists r1, delivers false s (subscripts (arg_exprs args)) r1 s' /\
    match r with Ok zs => r1 = Ok (map (fun z => GValue (CInt z)) zs) | Err x => r1 = Err x end).
  { rewrite AE. unfold Exec_Spec.integers in DV. destruct r; eexists; (split; [exact DV|reflexivity]). }
  destruct DV' as (r1 & DV1 & RE).
  pose proof (XA false (reg_index c f) f [] c h s r1 s' LD FW AR DV1) as P. rewrite FI in P.
  destruct P as [P|P]; [left; exact P|right]. destruct r as [zs|x]; subst r1; [|exact P].
  destruct P as (c1 & h1 & R1 & PC1 & HD1 & LA1 & TP1 & _). cbn [app] in *. rewrite <- FI in LA1.
  exists c1, h1. split; [exact R1|]. split; [exact PC1|]. split; [exact HD1|].
  pose proof (integers_length _ _ _ _ DV) as LZ. rewrite <- AE, LX in LZ.
  split; [rewrite O'; clear; lia|]. split; [rewrite O', LZ; clear -BD; lia|]. intros k z E.
  assert (E' : nth_error (map (fun z => GValue (CInt z)) zs) k = Some (GValue (CInt z))) by (rewrite nth_error_map, E; reflexivity).
  specialize (LA1 _ _ E'). cbn [slot_holds stands_for] in LA1. destruct LA1 as (_ & _ & LA1).
  rewrite <- LA1. f_equal. f_equal. rewrite FI, (greach_fp _ _ _ _ _ _ _ _ _ _ _ R1). unfold top_slot. rewrite O'. clear. lia.
Qed.

(** A step that fails. *)
Lemma gfails_at ls skip c h s i pc e c1 h1 : holding ls skip c h s -> fetched img (c_pc c) i ->
  dispatch powf img c h i = RStop (SException pc e) c1 h1 -> fails powf upcall img c h e (m_world h).
Proof. intros ST F D. eapply F_machine. rewrite (step_at _ _ _ _ _ (hd_yield _ _ _ _ _ _ _ _ ST) F). exact D. Qed.
Lemma sim_gone x' c h c1 h1 e s' : go c h c1 h1 -> fails powf upcall img c1 h1 e (world s') -> sim x' c h s' (SigError e).
Proof. intros G F. right. exists c1, h1. split; [apply G|exact F]. Qed.
Lemma stuck_gone c h c1 h1 w : go c h c1 h1 -> fails powf upcall img c1 h1 XHeap w -> stuck c h.
Proof. intros G F. exists c1, h1. split; [apply G|]. left. exists XHeap, w. split; [left; reflexivity|exact F]. Qed.

Lemma dim_array_sim name pos sh es t x x' c h s r s1 : compile_dim_array name pos sh es t x = COk x' -> ok x -> has x x' ->
  Forall in32 es -> state (snd x) c h s -> c_pc c = s_pc x -> integers s es r s1 ->
  match r with
  | Ok zs =>
      (Forall (fun z => (0 < z)%Z) zs -> (product (map Z.to_N zs) < 2 ^ 60)%N ->
       sim x' c h (store s1 (ascii_upper name) (Elements t (map Z.to_N zs) (fun _ => default_value t))) SigNormal) /\
      (forall i z, first_nonpositive zs i z -> sim x' c h s1 (SigError (XDimension i)))
  | Err e => sim x' c h s1 (SigError e)
  end.
Proof.
  intros H O HS LO ST PC DV. unfold compile_dim_array in H. apply bind_ok in H as ([reg l] & D & H). cbn zeta in H. cbn [fst] in H.
  apply bind_ok in H as (sc & OS & H). apply bind_ok in H as ([[o sc1] st1] & IE & H). destruct o as [f|]; [|discriminate H].
  destruct (packed_new t (N.of_nat (length es))) as [pk|] eqn:PK; [|discriminate H]. apply COk_inj in H.
  assert (SG : s_gen x' = emit (IAllocArray reg pk f) pos (fst st1)) by (subst x'; reflexivity).
  assert (XLX : ext l (snd x')) by (subst x'; apply ext_thaw).
  assert (XL : ext l L) by (eapply ext_trans; [exact XLX|apply HS]).
  destruct (dim_register_new _ _ _ _ _ _ _ D XL) as [X GW]. pose proof (by_now_lookup _ _ _ _ XL GW) as GB.
  pose proof (knowing_ext L L_ok L_ns L_ap _ XL) as K.
  apply open_ok in OS as (_ & _ & NL). 
  assert (W0 : gwf (fst (freeze (fst x, l)))) by (apply O).
  destruct (integers_run _ _ _ _ _ _ _ _ XL IE NL W0 LO) as (GI & FE & RUN).
  assert (W1 : gwf (fst st1)) by (eapply grows_gwf; eassumption). pose proof (gr_len _ _ _ GI) as LE.
  change (fst (freeze (fst x, l))) with (s_gen x) in *.
  pose proof (has_load _ _ _ _ _ _ HS) as LD. rewrite SG in LD.
  assert (LD1 : loaded (fst st1) (s_pc x)) by (eapply loaded_emit; [exact LD|exact W1|exact LE]).
  assert (STl : state l c h s) by (eapply state_ext; eassumption).
  pose proof (RUN c h s r s1 LD1 STl PC DV) as B. clear RUN.
  pose proof (hd_fp _ _ _ _ _ _ _ _ ST) as FP.
  destruct B as [B|B]; [destruct r as [zs|e]; [split; intros|]; apply sim_heap, B|].
  destruct r as [zs|e]; [|apply sim_error, B]. destruct B as (c1 & h1 & R1 & P1 & ST1 & HB).
  assert (G1 : go c h c1 h1) by (eapply go_reach; [exact R1|unfold top_slot; clear; lia|exact FP]).
  assert (FP1 : 64 <= c_fp c1) by apply ST1.
  assert (FT : fetched img (c_pc c1) (IAllocArray reg pk f)).
  { rewrite P1. eapply loaded_at; [exact LD|exact LE|discriminate]. }
  destruct (packed_roundtrip _ _ _ PK) as (PS & PN & _).
  assert (PN' : N.to_nat (packed_ndims pk) = length zs).
  { rewrite PN, Nat2N.id. symmetry. eapply integers_length, DV. }
  pose proof (hd_world _ _ _ _ _ _ _ _ ST1) as WD.
  split.
  - intros POS PR. destruct (N.lt_ge_cases (heap_len h1) (2 ^ 24)) as [L1|L1]; [destruct (N.lt_ge_cases (heap_len h1) (h_max h1)) as [L2|L2]|].
    2, 3: apply sim_heap; eapply stuck_gone; [exact G1|]; eapply gfails_at; [exact ST1|exact FT|];
      eapply alloc_array_full; eauto.
    destruct (alloc_array powf img c1 h1 reg pk t f zs (hd_heap _ _ _ _ _ _ _ _ ST1) PS PN' HB POS PR L1 L2) as (h2 & DI & RK & NA & EL & HK & HL).
    cbv zeta in *. set (i := heap_len h1) in *. set (c2 := Vm_Model.next_pc (set_reg c1 reg (ptr_for_heap i))) in *.
    assert (KP : heap_kept h1 h2).
    { apply heap_kept_more; [apply ST1|exact HK|]. rewrite HL. clear -L1. change (2 ^ 24)%N with 16777216%N in *. lia. }
    assert (G2 : go c1 h1 c2 (mkMem h2 (m_world h1))).
    { eapply go_reach with (ls := l) (skip := Some reg) (lim := c_fp c1) (reg := reg); [|apply le_n|exact FP1]. apply greach_reach; [|apply ST1].
      eapply reach_write; [apply ST1|exact FT|exact DI|exact KP|left; reflexivity]. }
    assert (S2 : holding l (Some reg) c2 (mkMem h2 (m_world h1)) s1).
    { eapply holding_same; [apply holding_skip, ST1|apply ST1|repeat split|reflexivity|exact KP|].
      intros v q p G NS. apply get_other; [exact FP1|]. intros E. apply NS. congruence. }
    assert (GR : get_reg c2 reg = ptr_for_heap i) by apply NA.
    eapply sim_normal with (m := l); [exact L_ns|eapply go_trans; [exact G1|exact G2]| | |exact XLX|apply HS].
    + change (S (c_pc c1) = s_pc x'). rewrite P1. unfold s_pc. rewrite SG, emit_pc. reflexivity.
    + change name with (vr_name (mkVarRef name None)).
      eapply holding_put_array; [apply (kn_ok _ _ K)|exact S2|exact GB| | |].
      * destruct NA as (N1 & N2 & dims & vs & N3 & N4). destruct RK as (vs' & N5).
        assert (dims = map Z.to_N zs /\ vs' = vs) as [-> ->] by (rewrite N3 in N5; injection N5; auto).
        split; [reflexivity|]. split; [rewrite map_length, <- PN', PN, Nat2N.id; reflexivity|]. exists i, vs. split; [exact N1|]. split; [exact GR|].
        split; [exact N3|]. split; [exact N4|]. intros subs VS. destruct (EL _ VS) as (ds & vs2 & E1 & V2 & E2).
        cbn [m_heap] in N3. rewrite N3 in E1. injection E1 as <- <-. eexists. split; [exact E2|].
        eapply stands_kept; [exact KP|]. destruct t; (split; [reflexivity|]).
        -- reflexivity.
        -- reflexivity.
        -- split; [split; discriminate|reflexivity].
        -- apply empty_text_deref, ST1.
      * intros v' r' p' t' dims' at' SN E. destruct SN as (V1 & V2 & V3).
        assert (GO : get_reg c2 r' = get_reg c1 r') by (apply get_other; [exact FP1|]; intros Q; apply V3; congruence).
        assert (SN1 : seen L l None s1 v' r' p' (Elements t' dims' at')) by (split; [exact V1|]; split; [exact V2|discriminate]).
        pose proof (hd_vars _ _ _ _ _ _ _ _ ST1 _ _ _ _ SN1) as RP. destruct p' as [t2 n2|t2]; [|contradiction].
        destruct RP as (_ & _ & j & vs & J1 & J2 & J3 & _).
        assert (j = i) as -> by (apply ptr_heap_inj; [exact J1|exact L1|congruence]).
        apply (heap_get_lt powf) in J3. unfold i in J3. clear -J3. lia.
      * intros j J1 J2. assert (j = i) as -> by (apply ptr_heap_inj; [exact J1|exact L1|congruence]).
        destruct (hidden i) as [d0|] eqn:HI; [|reflexivity]. apply (hd_hidden _ _ _ _ _ _ _ _ ST1) in HI.
        apply (heap_get_lt powf) in HI. unfold i in HI. clear -HI. lia.
  - intros i z FN. eapply sim_gone; [exact G1|]. rewrite <- WD. eapply gfails_at; [exact ST1|exact FT|].
    eapply alloc_array_bad; eassumption.
Qed.

(** ** Assigning to elements *)
Definition stored (s1 : env W) (k : ustr) (t : etype) (subs : list expr) (d : cdatum) (s' : env W) (g : signal) : Prop :=
  (exists zs s2 dims at_, integers s1 subs (Ok zs) s2 /\ vals s2 k = Some (Elements t dims at_) /\
     (valid_subs dims zs /\ s' = store s2 k (Elements t dims (change_element at_ zs d)) /\ g = SigNormal \/
      exists z n, first_bad dims zs z n /\ s' = s2 /\ g = SigError (bad_subscript z n))) \/
  (exists x, integers s1 subs (Err x) s' /\ g = SigError x).

Lemma element_sim v p subs e x x' c h s t dims0 at0 r s1 : compile_array_assignment v p subs e x = COk x' -> ok x -> has x x' ->
  in32 e -> Forall in32 subs -> state (snd x) c h s -> c_pc c = s_pc x ->
  vals s (ascii_upper (vr_name v)) = Some (Elements t dims0 at0) -> evals_as s (Some t) e r s1 ->
  match r with
  | Ok d => forall s' g, stored s1 (ascii_upper (vr_name v)) t subs d s' g -> sim x' c h s' g
  | Err er => sim x' c h s1 (SigError er)
  end.
Proof.
  intros H O HS LO LS ST PC V EV. unfold compile_array_assignment in H. cbn zeta in H.
  apply bind_ok in H as ([[arr t0] nd] & G & H).
  assert (G0 : get_local_or_global (snd x) v = Ok (arr, PArray t0 nd)).
  { destruct (get_local_or_global (snd x) v) as [[r0 [t1 n1|t1]]|[z|z|z|z w]]; try discriminate G. apply COk_inj in G. congruence. }
  clear G. destruct (Nat.eqb_spec (length subs) nd) as [LN|]; [|discriminate H]. cbn [negb] in H.
  apply bind_ok in H as (sc & OS & H). apply bind_ok in H as ([[val sc1] st1] & AL & H).
  apply bind_ok in H as (st2 & CE & H). apply bind_ok in H as ([[o sc2] st3] & IE & H). destruct o as [f|]; [|discriminate H].
  apply COk_inj in H.
  assert (SG : s_gen x' = emit (I3 StoreArray arr val f) p (fst st3)) by (subst x'; reflexivity).
  assert (XX : ext (snd x) (snd x')) by (subst x'; apply ext_thaw).
  assert (XL : ext (snd x) L) by (eapply ext_trans; [exact XX|apply HS]).
  pose proof (knowing_ext L L_ok L_ns L_ap _ XL) as K. pose proof (by_now_lookup _ _ _ _ XL G0) as GB.
  assert (t0 = t) as ->.
  { assert (SN : seen L (snd x) None s v arr (PArray t0 nd) (Elements t dims0 at0)) by (split; [exact V|]; split; [exact GB|discriminate]).
    apply (hd_vars _ _ _ _ _ _ _ _ ST _ _ _ _ SN). }
  assert (W0 : gwf (s_gen x)) by apply O.
  destruct (temp_scope_open _ _ _ _ _ _ OS AL) as (F1 & F2 & F3 & F4).
  assert (NL2 : sc_nlocals sc1 = N.of_nat (id_len (ls_locals (snd x)))).
  { apply open_ok in OS as (_ & _ & NL). apply alloc_ok in AL as (_ & _ & A3 & _). rewrite A3. exact NL. }
  destruct (as_type_expr_frame _ _ _ _ _ _ CE ltac:(rewrite F1; exact W0)) as [[G2 TN] LT]. rewrite F1 in G2, LT.
  assert (W2 : gwf (fst st2)) by (eapply grows_gwf; eassumption).
  destruct (integers_run _ _ _ _ _ _ _ _ XL IE NL2 W2 LS) as (GI & FE & RUN).
  assert (W3 : gwf (fst st3)) by (eapply grows_gwf; eassumption). pose proof (gr_len _ _ _ GI) as LE.
  pose proof (has_load _ _ _ _ _ _ HS) as LD. rewrite SG in LD.
  assert (LE' : s_pc x <= next_pc (fst st3)) by (unfold s_pc; clear -LE LT; lia).
  assert (LD3 : loaded (fst st3) (s_pc x)) by (eapply loaded_emit; [exact LD|exact W3|exact LE']).
  assert (LD2 : loaded (fst st2) (s_pc x)) by (eapply loaded_before; [exact GI|unfold s_pc; clear -LT; lia|exact LD3]).
  assert (E2 : compile_as (snd x) (Some t) e (start_pos e) val st1 = COk (st2, t)).
  { unfold compile_as. unfold compile_expr_as_type in CE. rewrite CE. reflexivity. }
  pose proof (temp_sim powf img upcall L hidden calls ups entry L_ok L_ns L_ap functions_ok calls_local _ _ _ _ _ _ _ _ _ _ _ c h s r s1 XL OS AL E2 W0 LD2 LO ST PC EV) as B.
  destruct B as [B|B]; [destruct r as [d|er]; [intros s' g _|]; apply sim_heap, B|].
  destruct r as [d|er]; [|apply sim_error, B]. destruct B as (c1 & h1 & R1 & P1 & Q1 & H1). intros s' g SD.
  pose proof (hd_fp _ _ _ _ _ _ _ _ ST) as FP.
  assert (G1 : go c h c1 h1) by (eapply go_reach; [exact R1|unfold top_slot; clear; lia|exact FP]).
  assert (DVS : exists r2 s2, integers s1 subs r2 s2 /\ match r2 with
     | Err er => s' = s2 /\ g = SigError er
     | Ok zs => exists dims at_, vals s2 (ascii_upper (vr_name v)) = Some (Elements t dims at_) /\
        (valid_subs dims zs /\ s' = store s2 (ascii_upper (vr_name v)) (Elements t dims (change_element at_ zs d)) /\ g = SigNormal \/
         exists z n, first_bad dims zs z n /\ s' = s2 /\ g = SigError (bad_subscript z n))
     end).
  { destruct SD as [(zs & s2 & dims & at_ & D1 & D2 & D3)|(er & D1 & D2)].
    - exists (Ok zs), s2. split; [exact D1|]. exists dims, at_. auto.
    - exists (Err er), s'. auto. }
  clear SD. destruct DVS as (r2 & s2 & DV & RC).
  assert (LD3' : loaded (fst st3) (next_pc (fst st2))) by (eapply loaded_after; [exact LD3|unfold s_pc; clear -LT; lia]).
  pose proof (RUN c1 h1 s1 r2 s2 LD3' H1 P1 DV) as B. eapply sim_after; [exact G1|].
  destruct B as [B|B]; [apply sim_heap, B|]. destruct r2 as [zs|er]; [|destruct RC as [-> ->]; apply sim_error, B].
  destruct B as (c2 & h2 & R2 & P2 & ST2 & HB).
  pose proof (hd_fp _ _ _ _ _ _ _ _ H1) as FP1.
  assert (G2' : go c1 h1 c2 h2) by (eapply go_reach; [exact R2|unfold top_slot; clear; lia|exact FP1]).
  eapply sim_after; [exact G2'|]. destruct RC as (dims & at_ & V2 & RC).
  assert (SN : seen L (snd x) None s2 v arr (PArray t nd) (Elements t dims at_)) by (split; [exact V2|]; split; [exact GB|discriminate]).
  destruct (hd_vars _ _ _ _ _ _ _ _ ST2 _ _ _ _ SN) as (_ & ND & i & vs & J1 & J2 & J3 & J4 & J5).
  assert (FT : fetched img (c_pc c2) (I3 StoreArray arr val f)).
  { rewrite P2. eapply loaded_at; [exact LD|exact LE'|discriminate]. }
  assert (RV : reg_index c1 val < top_slot (snd x) c1 (snd st2)).
  { rewrite F2, <- N.add_assoc, local_index. unfold top_slot. rewrite TN, F3. clear. lia. }
  assert (SV : get_reg c2 val = get_reg c1 val).
  { rewrite !get_reg_slot, (greach_index _ _ _ _ _ _ _ _ _ _ _ val R2). destruct R2 as (_ & _ & _ & R2).
    apply R2; [exact RV| |].
    - rewrite (temp_index _ c1 f (snd st2) FE). clear -RV. lia.
    - right. left. rewrite F2, <- N.add_assoc, local_index. clear. lia. }
  assert (SF : stands_for cs h2 t (get_reg c2 val) d).
  { rewrite SV. eapply stands_texts; [eapply greach_texts, R2|exact Q1]. }
  destruct RC as [(VS & -> & ->)|(z & n & FB & -> & ->)].
  - pose proof (store_exactly powf img c2 h2 arr val f i dims vs zs J1 J2 J3 J4 HB VS) as DI.
    destruct (holding_set_element _ _ _ _ _ _ _ _ _ _ _ _ _ _ _ (kn_ok _ _ K) ST2 V2 GB J1 J2 J3 J4 VS SF) as [TK S3].
    eapply sim_normal with (m := snd x) (c1 := Vm_Model.next_pc c2); [exact L_ns| | | |exact XX|apply HS].
    3: { change (Vm_Model.next_pc c2) with (set_pc c2 (S (c_pc c2))). apply state_pc. exact S3. }
    + split; [|split; [repeat split|split; [exact TK|auto]]].
      assert (E : Vm_Model.next_pc c2 = set_yield (Vm_Model.next_pc c2) false).
      { pose proof (hd_yield _ _ _ _ _ _ _ _ ST2) as Y. clear -Y. destruct c2; cbn in *. subst. reflexivity. }
      rewrite E. eapply gsteps_one. rewrite (step_at _ _ _ _ _ (hd_yield _ _ _ _ _ _ _ _ ST2) FT). exact DI.
    + change (S (c_pc c2) = s_pc x'). rewrite P2. unfold s_pc. rewrite SG, emit_pc. reflexivity.
  - assert (LZ : length zs = length dims) by (rewrite (integers_length _ _ _ _ DV), LN; exact ND).
    destruct (array_bad_subscript powf img c2 h2 arr f i dims zs) as (z' & n' & FB' & DI & _); auto.
    + split; [exact J1|]. split; [exact J2|]. exists dims, vs. auto.
    + exists vs. exact J3.
    + eapply first_bad_invalid; [exact calls_local|exact FB].
    + destruct (first_bad_unique dims _ _ _ _ _ FB FB') as [<- <-].
      eapply sim_gone; [apply go_refl, ST2|]. rewrite <- (hd_world _ _ _ _ _ _ _ _ ST2). eapply gfails_at; [exact ST2|exact FT|apply DI].
Qed.

(** ** Commands *)

(** The code that gives default values to variables that references introduce. *)
Definition defines (a b : codegen * lsyms) : Prop := gwf (fst a) -> ext (snd b) L ->
  grows (next_pc (fst a)) (fst a) (fst b) /\ ext (snd a) (snd b) /\
  forall c h s, loaded (fst b) (next_pc (fst a)) -> state (snd a) c h s -> c_pc c = next_pc (fst a) ->
    exists c', go c h c' h /\ c_pc c' = next_pc (fst b) /\ state (snd b) c' h s.
Lemma defines_nothing a : defines a a.
Proof.
  intros W0 XL. split; [apply grows_refl|]. split; [apply ext_refl|]. intros c h s LD ST PC. exists c.
  split; [apply go_refl, ST|]. auto.
Qed.
Lemma defines_trans a b d : lgrows (snd b) (snd d) -> defines a b -> defines b d -> defines a d.
Proof.
  intros LG A B W0 XL. assert (XB : ext (snd b) L) by (eapply ext_trans; [apply ext_grows, LG|exact XL]).
  destruct (A W0 XB) as (G1 & X1 & R1). assert (W1 : gwf (fst b)) by (eapply grows_gwf; eassumption).
  destruct (B W1 XL) as (G2 & X2 & R2). pose proof (gr_len _ _ _ G1) as L1. split; [|split].
  - eapply grows_trans; [exact G1|eapply grows_weaken; [exact G2|exact L1]].
  - eapply ext_trans; eassumption.
  - intros c h s LD ST PC. assert (LD1 : loaded (fst b) (next_pc (fst a))) by (eapply loaded_before; eassumption).
    destruct (R1 c h s LD1 ST PC) as (c1 & GO1 & P1 & S1).
    assert (LD2 : loaded (fst d) (next_pc (fst b))) by (eapply loaded_after; eassumption).
    destruct (R2 c1 h s LD2 S1 P1) as (c2 & GO2 & P2 & S2). exists c2. split; [eapply go_trans; eassumption|]. auto.
Qed.
Lemma define_new_arg_sim v pos a b : define_new_arg v pos a = COk b -> defines a b.
Proof.
  destruct a as [g l], b as [g' l']. intros H W0 XL. cbn [fst snd] in *.
  destruct (define_new_arg_frame _ _ _ _ _ _ H W0) as [GR LG]. split; [exact GR|]. pose proof (ext_grows _ _ LG) as X. split; [exact X|].
  intros c h s LD ST PC. unfold define_new_arg in H. cbn [fst snd] in H.
  destruct (put_local l _ _) as [[l1 [r|er]]|] eqn:PL; try discriminate H. apply COk_inj, pair_inj in H as [<- <-].
  destruct (put_local_grows _ _ _ _ _ PL) as (_ & NK & i & RI & LL & GG & II).
  set (t := match vr_type v with Some t => t | None => TInteger end) in *. set (w := mkVarRef (vr_name v) None).
  assert (GW : get_local_or_global l1 w = Ok (r, PScalar t)).
  { unfold get_local_or_global, get_var. change (symkey (vr_name w)) with (symkey (vr_name v)). rewrite LL, (get_app_none _ _ _ NK), RI. reflexivity. }
  destruct (default_sim _ w _ _ _ _ c h s XL GW LD) as (c' & G & P & S1); [eapply state_ext; eassumption|exact PC|].
  exists c'. split; [exact G|]. split; [unfold emit_default in *; rewrite emit_pc; exact P|].
  eapply holding_tables; [exact S1|reflexivity|]. intros v' x' V. split; [|reflexivity]. cbn [store vals].
  destruct (ustr_eqb (ascii_upper (vr_name w)) (symkey (vr_name v'))) eqn:Q; [exfalso|exact V].
  apply ustr_eqb_eq in Q. change symkey with ascii_upper in *. rewrite <- Q in V. apply (known_defined _ _ _ _ _ _ _ _ _ _ ST V).
  destruct XL as ([n E] & _). assert (LK : exists e', id_get ustr_eqb (ls_locals L) (symkey (vr_name w)) = Some e').
  { eexists. rewrite E. apply get_ext. rewrite LL. apply get_app_none. exact NK. }
  unfold get_local_or_global, get_global, get_var. cbn [by_now ls_locals ls_global].
  change (symkey (vr_name w)) with (ascii_upper (vr_name v)) in *. rewrite NK.
  destruct LK as [e' LK]. destruct (L_ns (ascii_upper (vr_name v))) as [Y|Y]; [congruence|]. rewrite Y. exact Logic.I.
Qed.
Lemma define_ref_sim e a b : define_ref e a = COk b -> defines a b.
Proof.
  intros H. unfold define_ref in H. assert (R : a = b -> defines a b) by (intros <-; apply defines_nothing).
  destruct e as [[]|]; try (apply COk_inj in H; auto; fail).
  destruct (get_local_or_global (snd a) v) as [[r [t0 n0|t0]]|[s|s|s|s w]]; try (apply COk_inj in H; auto; fail).
  destruct (get_callable _ _); [apply COk_inj in H; auto|]. eapply define_new_arg_sim; eassumption.
Qed.
Lemma define_singular_sim syns : forall args a rest b, define_singular syns args a = COk (rest, b) -> gwf (fst a) -> defines a b.
Proof.
  induction syns as [|[n t s|n ra df s|n t s|n am s] syns IH]; intros args a rest b H W0; cbn [define_singular] in H.
  - apply COk_inj, pair_inj in H as [_ <-]. apply defines_nothing.
  - destruct args; [discriminate|]. eapply IH; eassumption.
  - destruct args as [|[[e sep] sp] args]; [discriminate|]. apply bind_ok in H as (a1 & E & H). destruct df.
    + destruct a as [g l], a1 as [g1 l1], b as [g2 l2]. destruct (define_ref_frame _ _ _ _ _ E W0) as [G LG].
      assert (W1 : gwf g1) by (eapply grows_gwf; eassumption).
      eapply defines_trans; [|eapply define_ref_sim, E|eapply IH; [exact H|exact W1]].
      exact (proj2 (define_singular_frame _ _ _ _ _ _ _ H W1)).
    + apply COk_inj in E. subst a1. eapply IH; eassumption.
  - eapply IH; eassumption.
  - eapply IH; eassumption.
Qed.
Lemma define_repeated_sim args : forall a b, define_repeated args a = COk b -> gwf (fst a) -> defines a b.
Proof.
  induction args as [|[[e sep] sp] args IH]; intros a b H W0; cbn [define_repeated] in H.
  - apply COk_inj in H. subst b. apply defines_nothing.
  - apply bind_ok in H as (a1 & E & H). destruct a as [g l], a1 as [g1 l1], b as [g2 l2]. destruct (define_ref_frame _ _ _ _ _ E W0) as [G LG].
    assert (W1 : gwf g1) by (eapply grows_gwf; eassumption).
    eapply defines_trans; [|eapply define_ref_sim, E|eapply IH; [exact H|exact W1]].
    exact (proj2 (define_repeated_frame _ _ _ _ _ H W1)).
Qed.
Lemma define_new_args_sim md vpos args a b : define_new_args md vpos args a = COk b -> gwf (fst a) -> defines a b.
Proof.
  intros H W0. unfold define_new_args in H. destruct (find_syntax _ _) as [syn|]; [|discriminate].
  apply bind_ok in H as ([rest a1] & E & H).
  pose proof (define_singular_sim _ _ _ _ _ E W0) as D1. destruct a as [g l], a1 as [g1 l1], b as [g2 l2].
  destruct (define_singular_frame _ _ _ _ _ _ _ E W0) as [G LG]. assert (W1 : gwf g1) by (eapply grows_gwf; eassumption).
  assert (R : COk (g1, l1) = COk (g2, l2) -> defines (g, l) (g2, l2)).
  { intros Q. apply COk_inj in Q. rewrite <- Q. exact D1. }
  destruct (sy_repeated syn) as [[n [|t|] s o m]|]; auto.
  eapply defines_trans; [|exact D1|eapply define_repeated_sim; [exact H|exact W1]].
  exact (proj2 (define_repeated_frame _ _ _ _ _ H W1)).
Qed.

Hypothesis commands_ok : commands_obey powf img upcall L hidden calls ups entry.

(** Types are known. *)
Lemma laid_told l1 c m base gs : ext l1 L -> Call_Spec.laid L l1 (i_constants img) c (m : mem W) base gs ->
  Call_Spec.laid L l1 (i_constants img) c m base (map (told ty) gs).
Proof.
  intros XL LA k g E. rewrite nth_error_map in E. destruct (nth_error gs k) as [g0|] eqn:E0; [|discriminate E].
  cbn [option_map] in E. assert (g = told ty g0) as -> by congruence. clear E. specialize (LA _ _ E0).
  destruct g0 as [d|t|k0 t0]; cbn [told]; try exact LA. cbn [slot_holds] in *.
  destruct LA as (v & r & p & A & B & C & _). exists v, r, p. split; [exact A|]. split; [exact B|]. split; [exact C|].
  intros t1 D. subst k0. destruct XL as ([n LE] & _). unfold declared in D. destruct (lookup_cases _ _ _ _ B) as [(i & X & _)|(_ & i & X & _)];
    cbn [by_now ls_locals ls_global] in X; change symkey with ascii_upper in X.
  - rewrite LE, (get_ext _ _ _ _ X) in D. destruct p; [discriminate D|congruence].
  - destruct (L_ns (ascii_upper (vr_name v))) as [Y|Y]; [|congruence]. rewrite Y, X in D. destruct p; [discriminate D|congruence].
Qed.

Definition called (s1 : env W) (k : ustr) (gs : list given) (s' : env W) (g : signal) : Prop :=
  (calls k (map (told ty) gs) s1 (Ok None) s' /\ g = SigNormal) \/ (exists x, calls k (map (told ty) gs) s1 (Err x) s' /\ g = SigError x).

Lemma call_stmt_sim v p args x x' c h s md syn r s1 : compile_call_stmt v p args x = COk x' -> ok x -> has x x' ->
  Forall (arg_all in32) args -> state (snd x) c h s -> c_pc c = s_pc x -> callable (ascii_upper (vr_name v)) = Some md ->
  chosen md (length args) syn -> delivers true s (wants syn args) r s1 ->
  match r with
  | Ok gs => forall s' g, called s1 (ascii_upper (vr_name v)) gs s' g -> sim x' c h s' g
  | Err e => sim x' c h s1 (SigError e)
  end.
Proof.
  intros H O HS LO ST PC GL CH DV. pose proof (call_stmt_frame _ _ _ _ _ H (ok_wf _ O)) as SGR.
  unfold compile_call_stmt in H.
  assert (W0 : gwf (s_gen x)) by apply O.
  destruct (get_callable (ls_global (snd x)) (symkey (vr_name v))) as [md0|] eqn:GC0; [|discriminate H].
  assert (X0 : ext (snd x) L) by (eapply ext_trans; [apply ext_grows, SGR|apply HS]).
  pose proof (kn_fun _ _ (knowing_ext L L_ok L_ns L_ap _ X0) _ _ GC0) as GL0.
  assert (md0 = md) as -> by (change symkey with ascii_upper in *; congruence). clear GL0.
  destruct (md_return md) as [rt|] eqn:RT; [discriminate H|].
  apply bind_ok in H as ([g1 l1] & E1 & H). cbn zeta in H. apply bind_ok in H as ([[st first] lcs] & CA & H).
  apply bind_ok in H as (g2 & CG & H). apply COk_inj in H.
  assert (SG : s_gen x' = g2) by (subst x'; reflexivity).
  assert (XX : ext l1 (snd x')) by (subst x'; apply ext_thaw).
  assert (XL : ext l1 L) by (eapply ext_trans; [exact XX|apply HS]).
  pose proof (knowing_ext L L_ok L_ns L_ap _ XL) as K.
  destruct (define_new_args_sim _ _ _ _ _ E1 W0 W0 XL) as (G1 & X1 & RUN1). cbn [fst snd] in *.
  assert (W1 : gwf g1) by (eapply grows_gwf; eassumption).
  assert (GC : get_callable (ls_global l1) (symkey (vr_name v)) = Some md).
  { destruct (define_new_args_frame _ _ _ _ _ _ _ E1 W0) as [_ LG].
    clear -X1 GC0 XL K GL L_ap. unfold get_callable in *. destruct X1 as (_ & _ & U1 & U2).
    destruct (assoc (gs_user (ls_global (snd x))) (symkey (vr_name v))) as [md1|] eqn:E.
    - rewrite (U2 _ _ E). exact GC0.
    - destruct (assoc (gs_user (ls_global l1)) (symkey (vr_name v))) as [md1|] eqn:E'.
      + exfalso. destruct XL as (_ & _ & V1 & V2). apply V2 in E'. apply (ap_user _ L_ap) in E' as [_ Q].
        rewrite V1, U1 in Q. congruence.
      + rewrite U1. exact GC0. }
  assert (FW : Forall (arg_all (works powf img upcall L hidden calls ups entry l1 None)) args).
  { clear -functions_ok calls_local K. induction args as [|[[[e|] sep] q] args IH]; constructor; auto; [|exact Logic.I].
    cbn [arg_all]. apply expr_works; assumption. }
  destruct (args_sim powf img upcall L hidden calls ups entry calls_local l1 None K _ _ _ _ _ _ _ CA FW) as (syn0 & st1 & CH0 & DO & E2 & FE & FB & WL).
  rewrite <- (chosen_same _ _ _ _ CH CH0) in *. clear syn0 CH0.
  change (fst (freeze (set_gen g1 (fst x), l1))) with g1 in *. change (snd (freeze (set_gen g1 (fst x), l1))) with (frozen l1) in *.
  destruct (DO W1) as [GA XA]. rewrite <- E2 in GA. change (fst (freeze (set_gen g1 (fst x), l1))) with g1 in GA.
  assert (W2 : gwf (fst st)) by (eapply grows_gwf; eassumption).
  pose proof (gr_len _ _ _ GA) as LA. pose proof (gr_len _ _ _ G1) as LG1.
  assert (LE : s_pc x <= next_pc (fst st)) by (unfold s_pc; clear -LA LG1; lia).
  pose proof (has_load _ _ _ _ _ _ HS) as LD. rewrite SG in LD.
  change (s_gen (unfreeze (set_gen g1 (fst x), l1) st)) with (fst st) in CG.
  change (s_pc (unfreeze (set_gen g1 (fst x), l1) st)) with (next_pc (fst st)) in CG.
  assert (SITE : forall c, c_pc c = next_pc (fst st) -> call_site img L ups entry c (symkey (vr_name v)) md first (length lcs) /\
            next_pc g2 = S (next_pc (fst st)) /\ loaded (fst st) (s_pc x)).
  { intros c0 PC0. destruct (md_user md) eqn:U.
    - apply COk_inj in CG. subst g2.
      eapply user_site; [exact U|exact GC|exact LD|exact LE|exact PC0|left; reflexivity|right; eexists; reflexivity|exact W2].
    - apply bind_ok in CG as ([g3 idx] & GU & CG). apply COk_inj in CG. subst g2.
      eapply host_site; [exact calls_local|exact K|exact U|exact GC|exact GU|exact W2|exact LD|left; reflexivity|exact LE|exact PC0]. }
  assert (LD2 : loaded (fst st) (s_pc x)) by (apply (SITE (set_pc c (next_pc (fst st)))); reflexivity).
  assert (LD1 : loaded g1 (s_pc x)) by (eapply loaded_before; [exact GA|exact LG1|exact LD2]).
  destruct (RUN1 c h s LD1 ST PC) as (c1 & GO1 & P1 & S1).
  pose proof (temp_index _ c1 _ _ FE) as FI. pose proof (hd_fp _ _ _ _ _ _ _ _ S1) as FP1.
  assert (AR : arrived img L hidden l1 None (reg_index c1 first) (freeze (set_gen g1 (fst x), l1)) [] c1 h s).
  { split; [exact P1|]. split; [exact S1|]. split; [intros k g E; destruct k; discriminate E|].
    rewrite FI. split; [cbn [length]; change (snd (freeze (set_gen g1 (fst x), l1))) with (frozen l1); clear; lia|]. unfold top_slot. clear; lia. }
  assert (FA : Forall (arg_all (fine L l1 None s)) args).
  { clear -LO. induction LO as [|[[[e|] sep] q] args A B IH]; constructor; auto. cbn [arg_all] in *. apply fine_none, A. }
  assert (LDA : loaded (fst st1) (next_pc g1)) by (rewrite <- E2; eapply loaded_after; [exact LD2|exact LG1]).
  pose proof (XA true (reg_index c1 first) first [] c1 h s r s1 LDA (fine_wants _ _ _ _ _ _ FA) AR DV) as P. clear XA.
  destruct P as [P|P].
  { destruct r as [gs|e]; [intros s' g _|]; (eapply sim_after; [exact GO1|apply sim_heap, P]). }
  destruct r as [gs|e]; [|eapply sim_after; [exact GO1|apply sim_error, P]].
  intros s' g CL. destruct P as (c2 & h2 & R2 & P2 & S2 & LA2 & _ & _). cbn [app] in LA2. rewrite <- E2 in P2.
  eapply sim_after; [exact GO1|]. eapply sim_after; [eapply go_reach; [exact R2|rewrite FI; unfold top_slot; clear; lia|exact FP1]|].
  destruct (SITE c2 P2) as (CS & PG & _). rewrite WL, <- (delivers_width _ _ _ _ _ _ _ _ DV), <- (map_length (told ty) gs) in CS. rewrite <- (greach_index _ _ _ _ _ _ _ _ _ _ _ first R2) in LA2.
  assert (FR : (64 + N.of_nat (id_len (ls_locals l1)) <= first < 256)%N) by (clear -FE FB; lia).
  destruct CL as [[CL ->]|(er & CL & ->)].
  - destruct (commands_ok l1 c2 h2 s1 _ md first (map (told ty) gs) _ s' GL RT CS K S2 FR (laid_told _ _ _ _ _ XL LA2) CL) as [B|(c3 & h3 & G3 & P3 & S3)]; [apply sim_heap, B|].
    eapply sim_normal; [exact L_ns|exact G3| |exact S3|exact XX|apply HS].
    rewrite P3, P2. unfold s_pc. rewrite SG, PG. reflexivity.
  - destruct (commands_ok l1 c2 h2 s1 _ md first (map (told ty) gs) _ s' GL RT CS K S2 FR (laid_told _ _ _ _ _ XL LA2) CL) as [B|B]; [apply sim_heap, B|apply sim_error, B].
Qed.

(** ** END *)
Lemma end_stops c h r z : c_yield c = false -> fetched img (c_pc c) (I1 EndOp r) -> as_i32 (get_reg c r) = z ->
  ((0 <= z < 128)%Z -> step powf img c h = RStop (SEnd (Z.to_N z)) c h) /\
  (~ (0 <= z < 128)%Z -> fails powf upcall img c h (XExitCode z) (m_world h)).
Proof.
  intros Y F E. assert (D : dispatch powf img c h (I1 EndOp r) = if ((0 <=? z) && (z <? 128))%Z then RStop (SEnd (Z.to_N z)) c h
    else RStop (SException (c_pc c) (XExitCode z)) c h).
  { cbn [dispatch do_op1]. rewrite E. unfold exit_code_try_new. cbv zeta. destruct (_ && _)%bool; reflexivity. }
  split; intros K.
  - rewrite (step_at _ _ _ _ _ Y F), D. destruct (Z.leb_spec 0 z); [|lia]. destruct (Z.ltb_spec z 128); [|lia]. reflexivity.
  - eapply F_machine. rewrite (step_at _ _ _ _ _ Y F), D.
    destruct (Z.leb_spec 0 z); [|reflexivity]. destruct (Z.ltb_spec z 128); [lia|reflexivity].
Qed.

Lemma end_sim code pos x x' c h s v s1 : compile_end code pos x = COk x' -> ok x -> has x x' ->
  (forall e, code = Some e -> in32 e) -> state (snd x) c h s -> c_pc c = s_pc x ->
  match code with None => v = Ok (CInt 0) /\ s1 = s | Some e => evals_as s (Some TInteger) e v s1 end ->
  match v with
  | Ok (CInt z) => ((0 <= z < 128)%Z -> sim x' c h s1 (SigEnd (Z.to_N z))) /\
      (~ (0 <= z < 128)%Z -> sim x' c h s1 (SigError (XExitCode z)))
  | Ok _ => True
  | Err er => sim x' c h s1 (SigError er)
  end.
Proof.
  intros H O HS LO ST PC EV. unfold compile_end in H. apply bind_ok in H as (u0 & _ & H).
  apply bind_ok in H as (sc & E & H). apply bind_ok in H as ([[r sc'] st1] & E0 & H). apply bind_ok in H as (st2 & E1 & H).
  apply COk_inj in H. destruct (temp_scope_open _ _ _ _ _ _ E E0) as (F1 & F2 & F3 & F4).
  assert (SX : s_gen x' = emit (I1 EndOp r) pos (fst st2)) by (subst x'; reflexivity).
  assert (XX : ext (snd x) (snd x')) by (subst x'; apply ext_thaw).
  assert (XL : ext (snd x) L) by (eapply ext_trans; [exact XX|apply HS]).
  pose proof (knowing_ext L L_ok L_ns L_ap _ XL) as K. pose proof (hd_fp _ _ _ _ _ _ _ _ ST) as FP.
  assert (W0 : gwf (s_gen x)) by apply O. assert (W1 : gwf (fst st1)) by (rewrite F1; exact W0).
  pose proof (has_load _ _ _ _ _ _ HS) as LD. rewrite SX in LD.
  assert (G2 : gwf (fst st2) /\ s_pc x < next_pc (fst st2)).
  { destruct code as [e|].
    - destruct (as_type_expr_frame _ _ _ _ _ _ E1 W1) as [[G _] Q]. rewrite F1 in Q. split; [eapply grows_gwf; eassumption|exact Q].
    - apply COk_inj in E1. subst st2. cbn [e_emit fst snd]. rewrite F1. split; [|rewrite emit_pc; apply Nat.lt_succ_diag_r].
      eapply grows_gwf; [apply (grows_emit 0 (ILoadInteger r 0) pos); [exact W0|clear; lia]|exact W0]. }
  destruct G2 as [W2 LT]. assert (LE : s_pc x <= next_pc (fst st2)) by (clear -LT; lia).
  assert (LD2 : loaded (fst st2) (s_pc x)) by (eapply loaded_emit; [exact LD|exact W2|exact LE]).
  assert (B : stuck c h \/ match v with
     | Ok d => exists c' h', go c h c' h' /\ c_pc c' = next_pc (fst st2) /\ state (snd x) c' h' s1 /\ stands_for cs h' TInteger (get_reg c' r) d
     | Err er => gfails c h er (world s1) end).
  { destruct code as [e|].
    - assert (E2 : compile_as (snd x) (Some TInteger) e (start_pos e) r st1 = COk (st2, TInteger)).
      { unfold compile_as. unfold compile_expr_as_type in E1. rewrite E1. reflexivity. }
      pose proof (temp_sim powf img upcall L hidden calls ups entry L_ok L_ns L_ap functions_ok calls_local _ _ _ _ _ _ _ _ _ _ _ c h s v s1 XL E E0 E2 W0 LD2 (LO _ eq_refl) ST PC EV) as B.
      destruct B as [B|B]; [left; exact B|right]. destruct v as [d|er]; [|exact B].
      destruct B as (c1 & h1 & R1 & P1 & Q1 & H1). exists c1, h1. split; [eapply go_reach; [exact R1|unfold top_slot; clear; lia|exact FP]|]. auto.
    - destruct EV as [-> ->]. right. apply COk_inj in E1. subst st2. cbn [e_emit fst snd] in *. rewrite F1 in *.
      assert (FT : fetched img (c_pc c) (ILoadInteger r 0)) by (rewrite PC; eapply loaded_at; [exact LD2|apply le_n|discriminate]).
      destruct (gwrite powf img upcall L hidden (snd x) None K (c_fp c) r r c h s _ 0%N ST FT eq_refl ltac:(right; rewrite F2; clear; lia) (or_introl eq_refl)) as [R2 H2].
      eexists _, h. split; [eapply go_reach; [exact R2|apply le_n|exact FP]|].
      split; [rewrite emit_pc; change (S (c_pc c) = S (next_pc (s_gen x))); rewrite PC; reflexivity|]. split; [exact H2|].
      rewrite get_written. split; [reflexivity|]. split; [split; discriminate|reflexivity]. }
  destruct B as [B|B].
  { destruct v as [[b|b|z|tx]|er]; try exact Logic.I; [split; intros|]; apply sim_heap, B. }
  destruct v as [[b|b|z|tx]|er]; try exact Logic.I; [|apply sim_error, B].
  destruct B as (c1 & h1 & G1 & P1 & S1 & V1).
  assert (FE : fetched img (c_pc c1) (I1 EndOp r)) by (rewrite P1; eapply loaded_at; [exact LD|exact LE|discriminate]).
  destruct (end_stops c1 h1 r z (hd_yield _ _ _ _ _ _ _ _ S1) FE ltac:(apply V1)) as [A1 A2]. split; intros R.
  - right. exists c1, h1. split; [exact G1|]. split; [exists h1; apply A1, R|]. eapply state_ext; [exact L_ns|exact XX|apply HS|exact S1].
  - eapply sim_gone; [exact G1|]. rewrite <- (hd_world _ _ _ _ _ _ _ _ S1). apply A2, R.
Qed.

(** The code of a definition is jumped over. *)
Lemma user_callable_jump name np ps body ep x x' : bframe body -> compile_user_callable name np ps body ep x = COk x' -> swf x ->
  exists t, code_at x' (s_pc x) = Some (IJump t) /\ N.to_nat t = s_pc x'.
Proof.
  intros B H W0. unfold compile_user_callable in H.
  destruct (t_current (fst x)) eqn:CUR; [discriminate H|]. pose proof (proj2 W0 CUR) as EX.
  set (x1 := s_emit INop np x) in *. cbn zeta in H.
  pose proof (ext_emit _ _ _ INop np (ext_start x W0)) as K1. fold x1 in K1.
  set (kind := match vr_type name with Some _ => KFunction | None => KSub end) in *.
  set (x2 := (set_current (Some kind) (fst x1), enter_scope (ls_global (snd x)))) in *.
  assert (W2 : swf x2).
  { split; [exact (proj1 (proj1 (proj2 K1)))|]. cbn. discriminate. }
  apply bind_ok in H as (a & E & H). apply bind_ok in H as (a0 & E0 & H). apply bind_ok in H as (a1 & E1 & H). apply bind_ok in H as (a2 & E2 & H).
  apply bind_ok in H as (t & T & H). apply COk_inj in H. apply target_eq in T.
  pose proof (ext_step _ _ _ _ (ext_start x2 W2) (define_result_ext _ _ _ _ _ E W2)) as K3.
  apply define_params_grows in E0.
  assert (K4 : Top_Proofs.ext (s_pc x2) x2 (fst a, a0)).
  { destruct K3 as (G3 & W3 & L3).
    assert (G4 : sgrows (s_pc x2) a (fst a, a0)).
    { pose proof (sgrows_gen (s_pc x2) a (s_gen a) a0 (grows_refl _ _) E0) as R. destruct a as [c l]; destruct c; exact R. }
    split; [eapply sgrows_trans; eassumption|]. split; [eapply sgrows_swf; eassumption|exact L3]. }
  destruct (ext_body _ _ _ _ _ K4 B E1) as [K5 _].
  pose proof (ext_emit _ _ _ IReturn ep K5) as K6.
  set (y := s_emit IReturn ep a1) in *.
  assert (XE : Top_Proofs.within (s_pc x2) (s_pc y) (t_exits (fst y))).
  { destruct K6 as ([_ _ _ _ _ (e & E9 & E8 & _) _] & _). rewrite E9.
    change (t_exits (fst x2)) with (t_exits (fst x)). rewrite EX. exact E8. }
  destruct (ext_jumps _ _ _ _ _ _ _ K6 XE E2) as [K7 _].
  assert (P2 : s_pc x2 = S (s_pc x)) by apply s_emit_pc.
  pose proof (sgrows_pc _ _ _ (proj1 K7)) as P7.
  exists t. subst x'. split.
  - change (code_at (s_patch (s_pc x) (IJump t) (set_gen (define_user_callable (symkey (vr_name name)) (s_pc x1) (next_pc (t_gen (fst a2))) (t_gen (fst a2))) (fst a2), snd a2)) (s_pc x) = Some (IJump t)).
    apply code_patch_at. change (s_pc x < s_pc a2). lia.
  - rewrite T. unfold s_pc. rewrite s_gen_set, patch_pc. reflexivity.
Qed.
Lemma callable_jump name np ps body ep x x' : bframe body -> compile_callable name np ps body ep x = COk x' -> swf x ->
  exists t, code_at x' (s_pc x) = Some (IJump t) /\ N.to_nat t = s_pc x'.
Proof.
  intros B H W0. unfold compile_callable in H. apply bind_ok in H as (l & D & H). destruct (existsb _ _); [discriminate H|].
  apply bind_ok in H as (y & H & K). apply COk_inj in K. apply declare_grows in D as (LG & _).
  assert (W1 : swf (fst x, l)) by (eapply sgrows_swf; [apply (sgrows_syms 0 x l LG)|exact W0]).
  destruct (user_callable_jump _ _ _ _ _ _ _ B H W1) as (t & C & T). exists t. subst x'. split; [exact C|exact T].
Qed.

(** Statements that generate no code. *)
Lemma silent x x' c h s : has x x' -> ext (snd x) (snd x') -> s_pc x' = s_pc x -> state (snd x) c h s -> c_pc c = s_pc x ->
  sim x' c h s SigNormal.
Proof.
  intros HS X P ST PC. eapply sim_normal; [exact L_ns|apply go_refl, ST|rewrite P; exact PC|exact ST|exact X|apply HS].
Qed.

(** EXIT FUNCTION and EXIT SUB. *)
Lemma exit_callable_sim k e pos x x' c h s : compile_exit_callable k e pos x = COk x' -> state (snd x) c h s -> c_pc c = s_pc x ->
  sim x' c h s SigLeave.
Proof.
  intros H ST PC. unfold compile_exit_callable in H. destruct (match t_current _ with Some _ => _ | None => _ end); [|discriminate H].
  apply COk_inj in H. right. exists c, h. split; [apply go_refl, ST|]. subst x'. split; [|exact ST].
  cbn [place fst]. unfold set_exits. cbn [t_exits]. rewrite map_app. apply in_or_app. right. left. symmetry. exact PC.
Qed.
End Simple.
