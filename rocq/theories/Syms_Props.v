(** C16: variable lookup; C17: temporaries. *)
From Coq Require Import String.
From Verif Require Import Base Bytecode_Model Vm_Model Ids_Model Ids_Spec Ids_Proofs Ast_Model
  Syms_Model Syms_Spec Syms_Proofs.
Local Open Scope string_scope.
Local Open Scope list_scope.
Local Open Scope nat_scope.

(** Every reference, after any history of definitions, means the local of that name ignoring
    case, else the global, with a suffix check; locals are registers 64, 65, ... and globals
    0, 1, ... in order of definition. *)
Theorem C16_lookup : forall locals globals l v, defined locals globals l ->
  get_local_or_global l v = resolve locals globals v.
Proof.
  intros locals globals l v D. destruct (defined_tables _ _ _ D) as (T & G & Ll & Lg).
  apply lookup_resolve; assumption.
Qed.
Print Assumptions C16_lookup.

(** Defining a new local takes the next register, or reports that there are none left;
    redefining a name in the same scope is never silently accepted.  *)
Theorem C16_define_local : forall locals globals l name p, defined locals globals l ->
  match find_def locals name with
  | Some _ => put_local l (symkey name) p = None /\ contains_local l (symkey name) = true
  | None => contains_local l (symkey name) = false /\
      exists l', put_local l (symkey name) p =
          Some (l', if length locals <? 192 then Ok (64 + N.of_nat (length locals))%N
                    else Err (SeOutOfRegisters ScLocal)) /\
        (length locals < 192 -> defined (locals ++ [(name, p)]) globals l')
  end.
Proof.
  intros locals globals l name p D. destruct (defined_tables _ _ _ D) as (T & G & Ll & Lg).
  rewrite (contains_local_spec locals l name T).
  destruct (find_def locals name) as [d|] eqn:F.
  - split; [|reflexivity]. unfold put_local. rewrite (put_var_old locals); [reflexivity|assumption|congruence].
  - split; [reflexivity|].
    destruct (put_local_new locals l name p T F) as (l' & E & T' & G'); [lia|].
    exists l'. destruct (Nat.ltb_spec (length locals) 192) as [L|L].
    + rewrite local_reg in E by assumption. split; [assumption|]. intros _. eapply defined_local; eassumption.
    + rewrite local_reg_none in E by assumption. split; [assumption|]. lia.
Qed.
Print Assumptions C16_define_local.

(** The same for globals, of which there are 64. *)
Theorem C16_define_global : forall locals globals l name p, defined locals globals l ->
  match find_def globals name with
  | Some _ => ls_put_global l (symkey name) p = None /\
              contains_global (ls_global l) (symkey name) = true
  | None => contains_global (ls_global l) (symkey name) = false /\
      exists l', ls_put_global l (symkey name) p =
          Some (l', if length globals <? 64 then Ok (N.of_nat (length globals))
                    else Err (SeOutOfRegisters ScGlobal)) /\
        (length globals < 64 -> defined locals (globals ++ [(name, p)]) l')
  end.
Proof.
  intros locals globals l name p D. destruct (defined_tables _ _ _ D) as (T & G & Ll & Lg).
  rewrite (contains_global_spec globals _ name G).
  destruct (find_def globals name) as [d|] eqn:F.
  - split; [|reflexivity]. unfold ls_put_global, put_global.
    rewrite (put_var_old globals); [reflexivity|assumption|congruence].
  - split; [reflexivity|].
    destruct (put_global_new globals l name p G F) as (l' & E & T' & G'); [lia|].
    exists l'. destruct (Nat.ltb_spec (length globals) 64) as [L|L].
    + rewrite global_reg in E by assumption. split; [assumption|]. intros _. eapply defined_global; eassumption.
    + rewrite global_reg_none in E by assumption. split; [assumption|]. lia.
Qed.
Print Assumptions C16_define_global.

(** Names defined in one scope are all different, and two references to different variables
    never give the same register. *)
Theorem C16_registers_distinct : forall locals globals l v w r p s q, defined locals globals l ->
  get_local_or_global l v = Ok (r, p) -> get_local_or_global l w = Ok (s, q) -> r = s ->
  same_name (vr_name v) (vr_name w).
Proof.
  intros locals globals l v w r p s q D. rewrite !(C16_lookup _ _ _ _ D).
  destruct (defined_tables _ _ _ D) as (T & G & Ll & Lg). unfold resolve.
  destruct (find_def locals (vr_name v)) as [[i a]|] eqn:F1.
  - destruct (find_def locals (vr_name w)) as [[j b]|] eqn:F2.
    + destruct (suffix_ok v a); [|discriminate]. destruct (suffix_ok w b); [|discriminate].
      intros E1 E2 E. apply Ok_pair in E1 as [E1 _], E2 as [E2 _]. assert (i = j) by lia. subst j.
      apply find_def_nth in F1 as (n1 & N1 & S1), F2 as (n2 & N2 & S2). unfold same_name in *. congruence.
    + destruct (find_def globals (vr_name w)) as [[j b]|] eqn:F3; [|discriminate].
      destruct (suffix_ok v a); [|discriminate]. destruct (suffix_ok w b); [|discriminate].
      intros E1 E2 E. apply Ok_pair in E1 as [E1 _], E2 as [E2 _]. apply find_def_lt in F3. lia.
  - destruct (find_def globals (vr_name v)) as [[i a]|] eqn:F3; [|discriminate].
    destruct (find_def locals (vr_name w)) as [[j b]|] eqn:F2.
    + destruct (suffix_ok v a); [|discriminate]. destruct (suffix_ok w b); [|discriminate].
      intros E1 E2 E. apply Ok_pair in E1 as [E1 _], E2 as [E2 _]. apply find_def_lt in F3. lia.
    + destruct (find_def globals (vr_name w)) as [[j b]|] eqn:F4; [|discriminate].
      destruct (suffix_ok v a); [|discriminate]. destruct (suffix_ok w b); [|discriminate].
      intros E1 E2 E. apply Ok_pair in E1 as [E1 _], E2 as [E2 _]. assert (i = j) by lia. subst j.
      apply find_def_nth in F3 as (n1 & N1 & S1), F4 as (n2 & N2 & S2). unfold same_name in *. congruence.
Qed.
Print Assumptions C16_registers_distinct.

(** Names defined in one scope are pairwise different. *)
Theorem C16_names_distinct : forall locals globals l, defined locals globals l ->
  names_distinct locals /\ names_distinct globals.
Proof.
  intros locals globals l D. destruct (defined_tables _ _ _ D) as ((W & _) & (W' & _) & _ & _).
  split; apply keys_distinct; [apply W|apply W'].
Qed.
Print Assumptions C16_names_distinct.

(** A later definition of another name never changes what a reference to a defined variable
    means, except that a new local hides the global of the same name. *)
Theorem C16_stable : forall locals globals l name p l' r v, defined locals globals l ->
  put_local l (symkey name) p = Some (l', Ok r) -> ~ same_name name (vr_name v) ->
  get_local_or_global l' v = get_local_or_global l v.
Proof.
  intros locals globals l name p l' r v D E N.
  rewrite (C16_lookup _ _ _ _ D), (C16_lookup _ _ _ _ (defined_local _ _ _ _ _ _ _ D E)).
  unfold resolve. rewrite find_def_app.
  destruct (find_def locals (vr_name v)) as [[i a]|]; [reflexivity|].
  destruct (same_name_dec name (vr_name v)); [contradiction|reflexivity].
Qed.
Print Assumptions C16_stable.

(** The type inferred for a new variable replaces only its type. *)
Theorem C16_infer_type : forall locals globals l v t w i q, defined locals globals l ->
  find_def locals (vr_name v) = Some (i, q) ->
  fixup_local_type l v t =
    match q with
    | PArray _ _ => Err (SeUndefined v ScLocal)
    | PScalar _ => Ok (mkLsyms (ls_global l)
        (id_set ustr_eqb (ls_locals l) (symkey (vr_name v)) (PScalar t))
        (ls_count_temps l) (ls_active_temps l))
    end /\
  forall l', fixup_local_type l v t = Ok l' ->
    get_local_or_global l' w =
      if same_name_dec (vr_name v) (vr_name w) then
        if suffix_ok w (PScalar t) then Ok ((64 + N.of_nat i)%N, PScalar t) else Err (SeIncompatible w)
      else get_local_or_global l w.
Proof.
  intros locals globals l v t w i q D F. destruct (defined_tables _ _ _ D) as (T & G & Ll & Lg).
  unfold fixup_local_type. destruct T as [W L]. rewrite (L (vr_name v)), F.
  destruct q as [u n|u]; (split; [reflexivity|]); intros l' E; [discriminate|].
  apply Ok_inj in E. subst l'. unfold get_local_or_global, get_var, get_global.
  cbn [ls_locals ls_global].
  rewrite (proj2 (wf_set ustr_eqb ueqb _ _ _ (PScalar t) W)). rewrite (L (vr_name w)).
  destruct (same_name_dec (vr_name v) (vr_name w)) as [S|S].
  - assert (F' : find_def locals (vr_name w) = Some (i, PScalar u)).
    { pose proof (L (vr_name w)) as Lw. rewrite <- (proj2 (symkey_same _ _) S), L, F in Lw.
      destruct (find_def locals (vr_name w)) as [[j r]|]; [|discriminate].
      injection Lw as -> E. apply Nat2N.inj in E. congruence. }
    rewrite F'. rewrite (proj2 (symkey_same _ _) S), ustr_eqb_refl.
    pose proof (accepts_suffix w (PScalar t)) as A. cbn in A. rewrite A.
    destruct (suffix_ok w (PScalar t)); [|reflexivity].
    rewrite local_reg by (apply find_def_lt in F; lia). reflexivity.
  - destruct (find_def locals (vr_name w)) as [[j r]|]; [|reflexivity].
    rewrite (proj2 (ustr_eqb_neq (symkey (vr_name v)) (symkey (vr_name w)))); [reflexivity|].
    intros E. apply S. apply symkey_same. assumption.
Qed.
Print Assumptions C16_infer_type.

(** Callables: a user definition hides a built-in; declaring it again with a different
    signature, or over a global variable, is an error. *)
Theorem C16_callables : forall g v md k,
  match declare_user g v md with
  | Ok g' => gs_vars g' = gs_vars g /\ contains_global g (symkey (vr_name v)) = false /\
      get_callable g' k = if ustr_dec (symkey (vr_name v)) k then Some md else get_callable g k
  | Err e => e = SeAlreadyDefined v /\
      (contains_global g (symkey (vr_name v)) = true \/
       exists old, assoc (gs_user g) (symkey (vr_name v)) = Some old /\ old <> md)
  end.
Proof.
  intros g v md k. unfold declare_user.
  destruct (contains_global g (symkey (vr_name v))) eqn:C; [auto|].
  assert (X : get_callable (mkGsyms (gs_vars g) (gs_upcalls g)
      (assoc_insert (gs_user g) (symkey (vr_name v)) md)) k =
      if ustr_dec (symkey (vr_name v)) k then Some md else get_callable g k).
  { unfold get_callable. cbn [gs_user gs_upcalls assoc_insert assoc].
    destruct (ustr_dec (symkey (vr_name v)) k) as [->|N].
    - rewrite ustr_eqb_refl. reflexivity.
    - rewrite (proj2 (ustr_eqb_neq _ _) N).
      assert (Y : forall l, assoc (filter (fun e : ustr * callable_md =>
                    negb (ustr_eqb (fst e) (symkey (vr_name v)))) l) k = assoc l k).
      { induction l as [|[a b] l IH]; cbn [filter assoc fst]; [reflexivity|].
        destruct (ustr_eqb a (symkey (vr_name v))) eqn:Q; cbn [negb].
        - apply ueqb in Q. subst a. rewrite (proj2 (ustr_eqb_neq _ _) N). exact IH.
        - cbn [assoc]. destruct (ustr_eqb a k); [reflexivity|exact IH]. }
      rewrite Y. reflexivity. }
  destruct (assoc (gs_user g) (symkey (vr_name v))) as [old|] eqn:A.
  - destruct (md_dec old md) as [->|N]; [auto|]. split; [reflexivity|]. right. eauto.
  - auto.
Qed.
Print Assumptions C16_callables.

(** [x%] local 64, [Y] global 0; lookups ignore case and check the suffix. *)
Example C16_case :
  exists l, defined [(u "x", PScalar TInteger)] [(u "Y", PArray TText 2)] l /\
    get_local_or_global l (mkVarRef (u "X") (Some TInteger)) = Ok (64%N, PScalar TInteger) /\
    get_local_or_global l (mkVarRef (u "y") None) = Ok (0%N, PArray TText 2) /\
    get_local_or_global l (mkVarRef (u "x") (Some TText)) = Err (SeIncompatible (mkVarRef (u "x") (Some TText))).
Proof.
  eexists. split.
  - eapply (defined_global _ []).
    + eapply (defined_local []). { apply (defined_none (gs_new [])). reflexivity. } { reflexivity. }
    + reflexivity.
  - repeat split.
Qed.

(** * C17 *)

(** However scopes are nested, the temporaries in use are the consecutive registers right after
    the locals and the reserved temporaries: no two are the same and none is a variable. *)
Theorem C17_no_overlap : forall locals globals l ops o t, defined locals globals l ->
  temp_run l ops o t ->
  live_temps o = map (fun k => (64 + N.of_nat (length locals) + ls_active_temps l + N.of_nat k)%N)
                   (seq 0 (length (live_temps o))) /\
  NoDup (live_temps o) /\
  (forall v r p, get_local_or_global l v = Ok (r, p) -> ~ In r (live_temps o)).
Proof.
  intros locals globals l ops o t D R. destruct (defined_tables _ _ _ D) as (T & G & Ll & Lg).
  pose proof (temp_run_ok _ _ _ _ R) as S. pose proof (scopes_live _ _ _ _ S) as E.
  rewrite (table_len _ _ T) in E.
  assert (Len : length (live_temps o) = N.to_nat (ts_next t - ls_active_temps l))
    by (rewrite E, map_length, seq_length; reflexivity).
  split; [rewrite Len; exact E|]. split.
  - rewrite E. apply FinFun.Injective_map_NoDup; [intros a b; lia|apply seq_NoDup].
  - intros v r p H I. rewrite (C16_lookup _ _ _ _ D) in H. rewrite E in I.
    apply in_map_iff in I as (k & K & _). unfold resolve in H.
    destruct (find_def locals (vr_name v)) as [[i a]|] eqn:F.
    + apply find_def_lt in F. destruct (suffix_ok v a); [|discriminate]. apply Ok_pair in H as [H _]. lia.
    + destruct (find_def globals (vr_name v)) as [[i a]|] eqn:F'; [|discriminate].
      apply find_def_lt in F'. destruct (suffix_ok v a); [|discriminate]. apply Ok_pair in H as [H _]. lia.
Qed.
Print Assumptions C17_no_overlap.

(** Taking one more temporary gives the next register, and fails, with an error that says so,
    exactly when all 192 local registers are in use.  The recorded maximum covers every
    temporary in use. *)
Theorem C17_take : forall locals globals l ops s regs o t, defined locals globals l ->
  temp_run l ops ((s, regs) :: o) t ->
  let used := (N.of_nat (length locals) + ls_active_temps l +
               N.of_nat (length (live_temps ((s, regs) :: o))))%N in
  match scope_alloc s t with
  | Ok (r, s', t') => (used < 192)%N /\ r = (64 + used)%N /\
      (ls_active_temps l + N.of_nat (length (live_temps ((s, regs) :: o))) < ts_count t')%N
  | Err e => e = SeOutOfRegisters ScTemp /\ (192 <= used)%N
  end.
Proof.
  intros locals globals l ops s regs o t D R used.
  destruct (defined_tables _ _ _ D) as (T & G & Ll & Lg).
  pose proof (temp_run_ok _ _ _ _ R) as S. pose proof (scopes_live _ _ _ _ S) as E.
  pose proof (scopes_next _ _ _ _ S) as B.
  assert (Len : length (live_temps ((s, regs) :: o)) = N.to_nat (ts_next t - ls_active_temps l))
    by (rewrite E, map_length, seq_length; reflexivity).
  assert (Sn : sc_nlocals s = N.of_nat (length locals)).
  { cbn [scopes_ok] in S. destruct S as (-> & _). rewrite (table_len _ _ T). reflexivity. }
  subst used. rewrite Len. unfold scope_alloc, u8_ids. rewrite temp_register_ok, Sn.
  destruct (N.ltb_spec (ts_next t + 1) 256).
  - destruct (N.ltb_spec (N.of_nat (length locals) + ts_next t) 192).
    + cbn [ts_count]. repeat split; lia.
    + split; [reflexivity|lia].
  - split; [reflexivity|lia].
Qed.
Print Assumptions C17_take.

(** A scope's base register is the first one it takes, and closing it releases exactly what it
    took. *)
Theorem C17_scopes : forall locals globals l ops s regs o t, defined locals globals l ->
  temp_run l ops ((s, regs) :: o) t ->
  (forall r rest, regs = r :: rest -> scope_first s = Ok r) /\
  (forall s', temp_scope l (scope_drop s t) = Some s' ->
     scope_first s' = scope_first s /\ ts_count (scope_drop s t) = ts_count t).
Proof.
  intros locals globals l ops s regs o t D R.
  destruct (defined_tables _ _ _ D) as (T & G & Ll & Lg).
  pose proof (temp_run_ok _ _ _ _ R) as S. cbn [scopes_ok] in S. destruct S as (A & B & C & E & F).
  split.
  - intros r rest H. unfold scope_first. rewrite temp_register_ok.
    rewrite H in E. cbn [length seq map] in E. apply (f_equal (hd 0%N)) in E. cbn [hd] in E.
    assert (Bound : (r < 256)%N).
    { assert (X : Forall (fun r => (r < 256)%N) (live_temps ((s, regs) :: o))) by (eapply temps_bound; exact R).
      rewrite Forall_forall in X. apply X. unfold live_temps. cbn [map rev snd]. rewrite concat_app.
      apply in_or_app. right. cbn. subst regs. left. reflexivity. }
    rewrite A. destruct (N.ltb_spec (N.of_nat (id_len (ls_locals l)) + sc_base s) 192); [f_equal; lia|lia].
  - intros s' H. unfold temp_scope in H. destruct (_ <? _)%N; [|discriminate]. injection H as <-.
    unfold scope_first. cbn [sc_nlocals sc_base scope_drop ts_next ts_count]. rewrite A, C.
    split; [f_equal; lia|reflexivity].
Qed.
Print Assumptions C17_scopes.

(** A reserved temporary is the register right below all others taken while it is held. *)
Theorem C17_reserve : forall locals globals l, defined locals globals l ->
  match reserve_temp l with
  | Ok (r, l') => r = (64 + N.of_nat (length locals) + ls_active_temps l)%N /\ (r < 256)%N /\
      ls_active_temps l' = (ls_active_temps l + 1)%N /\ ls_locals l' = ls_locals l /\
      ls_global l' = ls_global l /\ ls_active_temps (release_temp l') = ls_active_temps l
  | Err e => e = SeOutOfRegisters ScTemp /\ (192 <= N.of_nat (length locals) + ls_active_temps l)%N
  end.
Proof.
  intros locals globals l D. destruct (defined_tables _ _ _ D) as (T & G & Ll & Lg).
  unfold reserve_temp, u8_ids. rewrite (table_len _ _ T), temp_register_ok.
  destruct (N.ltb_spec (N.of_nat (length locals)) 256); [|lia].
  destruct (N.ltb_spec (ls_active_temps l + 1) 256); [|split; [reflexivity|lia]].
  destruct (N.ltb_spec (N.of_nat (length locals) + ls_active_temps l) 192); [|split; [reflexivity|lia]].
  cbn [ls_active_temps ls_locals ls_global release_temp]. repeat split; lia.
Qed.
Print Assumptions C17_reserve.

(** Two nested scopes over one local: registers 65 and 66 are live, then 66 is reused. *)
Example C17_case :
  exists l o t, defined [(u "x", PScalar TInteger)] [] l /\
    temp_run l [OpenScope; TakeTemp; OpenScope; TakeTemp] o t /\ live_temps o = [65; 66]%N.
Proof.
  do 3 eexists. split; [|split].
  - eapply (defined_local []). { apply (defined_none (gs_new [])). reflexivity. } { reflexivity. }
  - eapply (run_take _ [_; _; _]).
    { eapply (run_open _ [_; _]).
      { eapply (run_take _ [_]). { eapply (run_open _ []); [constructor|reflexivity]. } { reflexivity. } }
      { reflexivity. } }
    { reflexivity. }
  - reflexivity.
Qed.
