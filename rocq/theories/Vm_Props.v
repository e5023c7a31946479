(** Theorems about the virtual machine (C05, C10, C11, C12). *)
From Verif Require Import Base Bytecode_Model Mem_Model Mem_Spec Mem_Proofs Num_Model Vm_Model Vm_Spec
  Vm_Proofs.

(** A program image from its instructions; the flags say which ones begin a statement. *)
Definition mk_image (l : list (instr * bool)) (constants : list cdatum) : image :=
  mkImage (map (fun p => encode (fst p)) l) constants []
    (map (fun p => mkMeta (1, 1)%N (snd p) []) l).

Definition no_pow (a b : N) : N := 0%N.
Definition no_upcall (i f : N) (pc : nat) (img : image) (c : ctx) (h : heap) (w : unit)
  : option (upcall_result unit) := None.
Definition fresh_vm : vm unit := vm_new unit 1000 (2 ^ 24) tt.

(** * C05: arrays *)

(** Storing an element: that element gets the value; every other element of every array, every
    string and every array shape stays as it was. *)
Theorem C05_store : forall powf img c h arr val first i dims subs,
  names_array c h arr i -> rank_of h i dims -> holds_subs c first subs -> valid_subs dims subs ->
  exists h', dispatch powf img c h (I3 StoreArray arr val first) = RNext (next_pc c) h' /\
    element h' i subs (get_reg c val) /\
    (forall j subs' v, (j <> i \/ subs' <> subs) -> (element h' j subs' v <-> element h j subs' v)) /\
    (forall j s, heap_get h' j = Some (HText s) <-> heap_get h j = Some (HText s)) /\
    (forall j ds, rank_of h' j ds <-> rank_of h j ds) /\ heap_len h' = heap_len h.
Proof. exact store_array. Qed.
Print Assumptions C05_store.

(** Loading gives the element and changes nothing but the destination register. *)
Theorem C05_load : forall powf img c h d arr first i dims subs,
  names_array c h arr i -> rank_of h i dims -> holds_subs c first subs -> valid_subs dims subs ->
  exists v, element h i subs v /\
    dispatch powf img c h (I3 LoadArray d arr first) = RNext (next_pc (set_reg c d v)) h.
Proof. exact load_array. Qed.
Print Assumptions C05_load.

(** A subscript out of range is an error naming the first bad one, for loads and stores. *)
Theorem C05_bad_subscript : forall powf img c h arr first i dims subs,
  names_array c h arr i -> rank_of h i dims -> holds_subs c first subs ->
  length subs = length dims -> ~ valid_subs dims subs ->
  exists s d, first_bad dims subs s d /\
    let e := XSubscript (if (s <? 0)%Z then SubNegative s else SubExceeds (Z.to_N s) d) in
    (forall val, dispatch powf img c h (I3 StoreArray arr val first) = RStop (SException (c_pc c) e) c h) /\
    (forall dest, dispatch powf img c h (I3 LoadArray dest arr first) = RStop (SException (c_pc c) e) c h).
Proof. exact array_bad_subscript. Qed.
Print Assumptions C05_bad_subscript.

(** Creating an array: a new array of the requested shape, all elements zero (or the empty
    string), nothing existing disturbed. *)
Theorem C05_create : forall powf img c h dest packed t first zs,
  heap_ok h -> packed_subtype packed = Some t -> N.to_nat (packed_ndims packed) = length zs ->
  holds_subs c first zs -> Forall (fun z => (0 < z)%Z) zs -> (product (map Z.to_N zs) < 2 ^ 60)%N ->
  (heap_len h < 2 ^ 24)%N -> (heap_len h < h_max h)%N ->
  exists h', let i := heap_len h in
    dispatch powf img c h (IAllocArray dest packed first) =
      RNext (next_pc (set_reg c dest (ptr_for_heap i))) h' /\
    rank_of h' i (map Z.to_N zs) /\
    names_array (next_pc (set_reg c dest (ptr_for_heap i))) h' dest i /\
    (forall subs, valid_subs (map Z.to_N zs) subs ->
       element h' i subs (match t with TText => empty_text_ptr h | _ => 0%N end)) /\
    (forall j d, heap_get h j = Some d -> heap_get h' j = Some d) /\ heap_len h' = (heap_len h + 1)%N.
Proof. exact alloc_array. Qed.
Print Assumptions C05_create.

(** A dimension that is not positive is an error naming the first such dimension. *)
Theorem C05_bad_dimension : forall powf img c h dest packed t first zs k z,
  packed_subtype packed = Some t -> N.to_nat (packed_ndims packed) = length zs ->
  holds_subs c first zs -> first_nonpositive zs k z ->
  dispatch powf img c h (IAllocArray dest packed first) = RStop (SException (c_pc c) (XDimension k)) c h.
Proof. exact alloc_array_bad. Qed.
Print Assumptions C05_bad_dimension.

(** A 2x3 array in register 64, the value 7 in register 65, subscripts (1, 2) from 66. *)
Definition arr_ctx : ctx :=
  mkCtx 0 64 HNone (repeat 0%N 64 ++ [ptr_for_heap 1; 7; 1; 2]%N) [] 10 false.
Definition arr_heap : heap := mkHeap [HText []; HArray [2; 3]%N (repeat 0%N 6)] 100%N.
Example C05_case :
  names_array arr_ctx arr_heap 64 1 /\ rank_of arr_heap 1 [2; 3]%N /\
  holds_subs arr_ctx 66 [1; 2]%Z /\ valid_subs [2; 3]%N [1; 2]%Z /\
  dispatch no_pow (mk_image [] []) arr_ctx arr_heap (I3 StoreArray 64 65 66) =
    RNext (next_pc arr_ctx) (mkHeap [HText []; HArray [2; 3]%N [0; 0; 0; 0; 0; 7]%N] 100%N).
Proof.
  split; [split; [reflexivity|split; [reflexivity|eexists _, _; split; reflexivity]]|].
  split; [eexists; reflexivity|]. split; [|split; [repeat constructor; lia|reflexivity]].
  split; [lia|]. split; [cbn; lia|].
  intros [|[|[|k]]] s E; cbn in E; try discriminate; injection E as <-; reflexivity.
Qed.

(** * C10: execution comes back to the host *)

(** The instruction loop stops from every state of every program whose backward jumps touch a
    statement start, whatever the registers, heap, handler and call stack. *)
Theorem C10_instruction_loop_stops : forall powf img c h,
  backward_jumps_marked img -> exists fuel r, ctx_exec powf fuel img c h = Some r.
Proof. intros. apply ctx_exec_stops. assumption. Qed.
Print Assumptions C10_instruction_loop_stops.

(** The whole machine, running external callables and RESUME NEXT handlers inline, returns to
    the host as long as no jump handler can be installed. *)
Theorem C10_machine_stops : forall W powf upcall img (v : vm W),
  backward_jumps_marked img -> no_jump_handlers img ->
  (forall a, c_handler (v_ctx W v) <> HJump false a) ->
  exists r, vm_runs powf upcall img v r.
Proof. intros. apply vm_stops; assumption. Qed.
Print Assumptions C10_machine_stops.

(** The result does not depend on how long the model is allowed to run. *)
Theorem C10_result_unique : forall W powf upcall img (v : vm W) r r',
  vm_runs powf upcall img v r -> vm_runs powf upcall img v r' -> r = r'.
Proof. intros. eapply vm_runs_fun; eassumption. Qed.
Print Assumptions C10_result_unique.

(** [@top: GOTO @top]: yields. *)
Definition spin : image := mk_image [(IJump 0, true); (IEof, false)] [].
Example C10_case :
  backward_jumps_marked spin /\ no_jump_handlers spin /\
  exists v, vm_runs no_pow no_upcall spin fresh_vm (VStop unit VYield v).
Proof.
  split; [|split].
  - intros [|[|pc]] t (w & t' & E & <- & D) L; cbn in E; try (destruct pc; discriminate);
      injection E as <-; destruct D as [D|[r D]]; vm_compute in D; try discriminate.
    injection D as <-. left. reflexivity.
  - intros [|[|pc]] w t E D; cbn in E; try (destruct pc; discriminate); injection E as <-;
      vm_compute in D; discriminate.
  - eexists. exists 10. vm_compute. reflexivity.
Qed.

(** Without the restriction on jump handlers it is false: an error handler that installs itself
    and fails again keeps the machine busy for ever, without ever yielding.
    ([@h: ON ERROR GOTO @h : RETURN]) *)
Definition error_loop : image :=
  mk_image [(ISetErrorHandler EhJump 0, true); (IReturn, true); (IEof, false)] [].

Lemma error_loop_turn n v :
  v_pending unit v = None -> c_pc (v_ctx unit v) = 0 -> c_stack (v_ctx unit v) = [] ->
  c_yield (v_ctx unit v) = false ->
  vm_turn no_pow unit no_upcall (S (S n)) error_loop v =
  Some (inl (mkVm unit (mkCtx 0 (c_fp (v_ctx unit v)) (HJump true 0) (c_regs (v_ctx unit v)) []
                          (c_max (v_ctx unit v)) false)
               (v_heap unit v) (Some ((1, 1)%N, XReturn)) None (v_world unit v))).
Proof.
  destruct v as [[pc fp hd regs st mx y] hp le pd w]. cbn [v_pending v_ctx c_pc c_stack c_yield].
  intros -> -> -> ->. reflexivity.
Qed.

Theorem C10_jump_handlers_refuted :
  exists img (v : vm unit), backward_jumps_marked img /\ v = fresh_vm /\
    forall r, ~ vm_runs no_pow no_upcall img v r.
Proof.
  exists error_loop, fresh_vm. split; [|split; [reflexivity|]].
  - intros [|[|[|pc]]] t (w & t' & E & <- & D) L; cbn in E; try (destruct pc; discriminate);
      injection E as <-; destruct D as [D|[r D]]; vm_compute in D; discriminate.
  - intros r [n E]. revert E.
    assert (G : forall n v, v_pending unit v = None -> c_pc (v_ctx unit v) = 0 ->
              c_stack (v_ctx unit v) = [] -> c_yield (v_ctx unit v) = false ->
              vm_exec no_pow unit no_upcall n error_loop v <> Some r).
    { clear n. induction n as [|n IH]; intros v P Q S Y; [discriminate|].
      destruct n as [|n].
      - destruct v as [[pc fp hd regs st mx y] hp le pd w].
        cbn [v_pending v_ctx c_pc c_stack c_yield] in *. subst. discriminate.
      - cbn [vm_exec]. rewrite error_loop_turn by assumption.
        apply IH; reflexivity. }
    apply G; reflexivity.
Qed.
Print Assumptions C10_jump_handlers_refuted.

(** * C11: calls *)

(** A user call: the callee starts at its target; however it runs, as long as it has not
    returned the caller's frame stays; when it returns, execution goes on right after the call,
    in the caller's frame, with the result in the result register, and every register of the
    caller (and of its callers) below the argument area holds what it held. *)
Theorem C11_call_returns : forall powf img c h c1 h1 c2 h2 c3 h3 reg target,
  (64 <= reg)%N -> 64 <= c_fp c ->
  fetched img (c_pc c) (ICall reg target) -> step powf img c h = RNext c1 h1 ->
  runs_above powf img (length (c_stack c1)) c1 h1 c2 h2 ->
  length (c_stack c2) = length (c_stack c1) ->
  fetched img (c_pc c2) IReturn -> step powf img c2 h2 = RNext c3 h3 ->
  c_pc c1 = N.to_nat target /\ h1 = h /\ h3 = h2 /\
  c_pc c3 = S (c_pc c) /\ c_fp c3 = c_fp c /\ c_stack c3 = c_stack c /\
  get_reg c3 reg = slot c2 (c_fp c2) /\
  forall k, 64 <= k < c_fp c + N.to_nat (reg - 64) -> slot c3 k = slot c k.
Proof. exact call_returns. Qed.
Print Assumptions C11_call_returns.

(** A GOSUB: shares the registers, comes back right after it, and lets the host in. *)
Theorem C11_gosub_returns : forall powf img c h c1 h1 c2 h2 c3 h3 target,
  fetched img (c_pc c) (IGosub target) -> step powf img c h = RNext c1 h1 ->
  runs_above powf img (length (c_stack c1)) c1 h1 c2 h2 ->
  length (c_stack c2) = length (c_stack c1) ->
  fetched img (c_pc c2) IReturn -> step powf img c2 h2 = RNext c3 h3 ->
  c_pc c1 = N.to_nat target /\ c_regs c1 = c_regs c /\ c_fp c1 = c_fp c /\ h1 = h /\ h3 = h2 /\
  c_pc c3 = S (c_pc c) /\ c_fp c3 = c_fp c /\ c_stack c3 = c_stack c /\ c_regs c3 = c_regs c2 /\
  c_yield c3 = true.
Proof. exact gosub_returns. Qed.
Print Assumptions C11_gosub_returns.

(** RETURN without a call is an error; a call beyond the limit is an error; neither changes
    anything; below the limit calls succeed; the stack never exceeds the limit. *)
Theorem C11_limits : forall powf img c h,
  (c_stack c = [] -> dispatch powf img c h IReturn = RStop (SException (c_pc c) XReturn) c h) /\
  (forall i, (exists r t, i = ICall r t) \/ (exists t, i = IGosub t) ->
     (c_max c <= length (c_stack c) ->
        dispatch powf img c h i = RStop (SException (c_pc c) XCallStack) c h) /\
     (length (c_stack c) < c_max c -> exists c', dispatch powf img c h i = RNext c' h /\
        length (c_stack c') = S (length (c_stack c)))) /\
  (forall c' h', step powf img c h = RNext c' h' -> length (c_stack c) <= c_max c ->
     length (c_stack c') <= c_max c' /\ c_max c' = c_max c).
Proof.
  intros. split; [|split].
  - intros E. cbn [dispatch]. unfold do_return. rewrite E. reflexivity.
  - intros i Hi. split; intros L; destruct Hi as [(r & t & ->)|(t & ->)]; cbn [dispatch]; unfold push_frame;
      destruct (Nat.leb_spec (c_max c) (length (c_stack c))); try lia; try reflexivity;
      eexists; split; reflexivity.
  - intros c' h' H L. destruct (step_control _ _ _ _ _ _ H) as (i & _ & M & C & _). split; [|assumption].
    destruct C as [i P Fp S _ _ _ | i t _ -> | r t Lm -> | t Lm -> | f rest S _ _ S' _ _ _].
    + rewrite S, M. assumption.
    + unfold jump_to. destruct (_ <=? _); assumption.
    + cbn. lia.
    + cbn. lia.
    + rewrite S', M. rewrite S in L. cbn in L. lia.
Qed.
Print Assumptions C11_limits.

(** 0: CALL R66, 3; 1: NOP; 2: EOF; 3: GOSUB 6; 4: LOADI R64, 5; 5: RETURN; 6: RETURN. *)
Definition call_img : image :=
  mk_image [(ICall 66 3, true); (INop, true); (IEof, false); (IGosub 6, true);
            (ILoadInteger 64 5, true); (IReturn, true); (IReturn, true)] [].
Example C11_case : exists c1 h1 c2 h2 c3 h3, let c := ctx_new 10 in let h := heap_new 100 in
  fetched call_img (c_pc c) (ICall 66 3) /\ step no_pow call_img c h = RNext c1 h1 /\
  length (c_stack c1) = 1 /\
  length (c_stack c2) = length (c_stack c1) /\ fetched call_img (c_pc c2) IReturn /\
  step no_pow call_img c2 h2 = RNext c3 h3 /\ get_reg c3 66 = 5%N /\ c_pc c3 = 1.
Proof.
  eexists _, _, (mkCtx 5 66 HNone (put (repeat 0%N 255) 66 5) [mkFrame 0 64 (Some 66%N)] 10 false), (heap_new 100), _, _.
  cbv zeta. split; [eexists; split; reflexivity|]. split; [reflexivity|].
  split; [reflexivity|]. split; [reflexivity|]. split; [eexists; split; reflexivity|].
  split; [reflexivity|]. split; reflexivity.
Qed.

(** * C12: error handling *)

(** A failing instruction has no effect. *)
Theorem C12_failure_has_no_effect : forall powf img c h pc e c' h',
  step powf img c h = RStop (SException pc e) c' h' -> c' = c /\ h' = h /\ pc = c_pc c.
Proof. intros. edestruct step_exception as (A & B & C & _); eauto. Qed.
Print Assumptions C12_failure_has_no_effect.

(** No handler, or an error inside the handler: the machine stops with the error and its
    position, records it, and is parked at the end of the program. *)
Theorem C12_unhandled : forall W powf upcall img (v : vm W) c h w pc pos e,
  v_pending W v = None -> raises powf upcall img v c h w pc pos e ->
  (c_handler c = HNone \/ exists a, c_handler c = HJump true a) ->
  forall r, vm_runs powf upcall img v r <->
    r = VStop W (VException pos e)
          (mkVm W (set_pc c (length (i_code img) - 1)) h (Some (pos, e)) None w).
Proof.
  intros W powf upcall img v c h w pc pos e P R H r.
  pose proof (raises_turn powf W upcall img v c h w pc pos e P R) as T.
  assert (T' : turns powf W upcall img v (inr (VStop W (VException pos e)
          (mkVm W (set_pc c (length (i_code img) - 1)) h (Some (pos, e)) None w)))).
  { destruct H as [H|[a H]]; rewrite H in T; exact T. }
  apply vm_runs_stop in T'. split; [intros X; eapply vm_runs_fun; eassumption|intros ->; assumption].
Qed.
Print Assumptions C12_unhandled.

(** ON ERROR GOTO: execution continues at the handler, marked active, with the error recorded
    and everything else (in particular the call stack) as the failure left it. *)
Theorem C12_goto : forall W powf upcall img (v : vm W) c h w pc pos e a,
  v_pending W v = None -> raises powf upcall img v c h w pc pos e -> c_handler c = HJump false a ->
  forall r, vm_runs powf upcall img v r <->
    vm_runs powf upcall img
      (mkVm W (mkCtx a (c_fp c) (HJump true a) (c_regs c) (c_stack c) (c_max c) (c_yield c)) h
         (Some (pos, e)) None w) r.
Proof.
  intros W powf upcall img v c h w pc pos e a P R H r.
  pose proof (raises_turn powf W upcall img v c h w pc pos e P R) as T. rewrite H in T.
  exact (vm_runs_continue powf W upcall img v _ r T).
Qed.
Print Assumptions C12_goto.

(** ON ERROR RESUME NEXT: execution continues at the next statement boundary. *)
Theorem C12_resume_next : forall W powf upcall img (v : vm W) c h w pc pos e,
  v_pending W v = None -> raises powf upcall img v c h w pc pos e -> c_handler c = HResumeNext ->
  exists q, next_statement img pc q /\
  forall r, vm_runs powf upcall img v r <->
    vm_runs powf upcall img
      (mkVm W (mkCtx q (c_fp c) HResumeNext (c_regs c) (c_stack c) (c_max c) (c_yield c)) h
         (Some (pos, e)) None w) r.
Proof.
  intros W powf upcall img v c h w pc pos e P R H.
  exists (resume_point img pc). split; [apply resume_point_next|]. intros r.
  pose proof (raises_turn powf W upcall img v c h w pc pos e P R) as T.
  replace (mkCtx (resume_point img pc) (c_fp c) HResumeNext (c_regs c) (c_stack c) (c_max c) (c_yield c))
    with (set_pc c (resume_point img pc)) by (unfold set_pc; rewrite H; reflexivity).
  rewrite H in T. exact (vm_runs_continue powf W upcall img v _ r T).
Qed.
Print Assumptions C12_resume_next.

(** [ON ERROR RESUME NEXT : RETURN : NOP]: the error of RETURN is skipped. *)
Definition resume_img : image :=
  mk_image [(ISetErrorHandler EhResumeNext 0, true); (IReturn, true); (INop, true); (IEof, false)] [].
Example C12_case :
  (exists c h, raises no_pow no_upcall resume_img fresh_vm c h tt 1 (1, 1)%N XReturn /\
     c_handler c = HResumeNext /\ next_statement resume_img 1 2) /\
  exists v, vm_runs no_pow no_upcall resume_img fresh_vm (VStop unit VEof v) /\
    v_last_error unit v = Some ((1, 1)%N, XReturn).
Proof.
  split.
  - eexists _, _. split; [|split].
    + change tt with (v_world unit fresh_vm).
      change (1, 1)%N with (m_pos (mkMeta (1, 1)%N true [])).
      eapply raises_instr.
      * eapply runs_step; [reflexivity|cbn; lia|apply runs_refl].
      * reflexivity.
      * reflexivity.
    + reflexivity.
    + left. split; [lia|]. split; [reflexivity|]. intros; lia.
  - eexists. split; [exists 10; vm_compute; reflexivity|reflexivity].
Qed.

(** The documentation promises that RESUME NEXT hides errors.  When the failing statement is the
    last one of the program there is no later statement boundary, execution is resumed past the
    end of the code, and the machine panics.  ([ON ERROR RESUME NEXT : RETURN]) *)
Definition resume_last : image :=
  mk_image [(ISetErrorHandler EhResumeNext 0, true); (IReturn, true); (IEof, false)] [].
Theorem C12_resume_next_at_end_refuted :
  exists img c h pos, raises no_pow no_upcall img fresh_vm c h tt 1 pos XReturn /\
    c_handler c = HResumeNext /\ vm_runs no_pow no_upcall img fresh_vm (VPanic unit).
Proof.
  exists resume_last. eexists _, _, (1, 1)%N. split; [|split].
  - change tt with (v_world unit fresh_vm).
    change (1, 1)%N with (m_pos (mkMeta (1, 1)%N true [])).
    eapply raises_instr.
    + eapply runs_step; [reflexivity|cbn; lia|apply runs_refl].
    + reflexivity.
    + reflexivity.
  - reflexivity.
  - exists 10. vm_compute. reflexivity.
Qed.
Print Assumptions C12_resume_next_at_end_refuted.
