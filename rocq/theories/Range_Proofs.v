(** Every instruction that the compiler emits fits the encoding. *)
From Verif Require Import Base Bytecode_Model Bytecode_Spec Bytecode_Proofs Mem_Model Vm_Model Ids_Model
  Ast_Model Syms_Model Syms_Proofs Codegen_Model Codegen_Proofs Exprs_Model Exprs_Proofs Top_Model
  Top_Proofs.

(** * Weakest preconditions *)

Definition wp {A} (r : cres A) (Q : A -> Prop) : Prop := match r with COk a => Q a | _ => True end.

Lemma wp_ok {A} (r : cres A) Q a : r = COk a -> wp r Q -> Q a.
Proof. intros ->. auto. Qed.
Lemma wp_bind {A B} (r : cres A) (f : A -> cres B) Q : wp r (fun a => wp (f a) Q) -> wp (bind r f) Q.
Proof. destruct r; auto. Qed.
Lemma wp_mono {A} (r : cres A) (P Q : A -> Prop) : wp r P -> (forall a, P a -> Q a) -> wp r Q.
Proof. destruct r; cbn [wp]; auto. Qed.
Lemma wp_map_error {A} f (r : cres A) Q : wp r Q -> wp (map_error f r) Q.
Proof. destruct r; auto. Qed.

(** * The invariant *)

Definition ids_fit {K V} (m : @idmap K V) : Prop := Forall (fun e => (snd (snd e) < 65536)%N) m.
Definition fixup_fits (f : nat * fixup) : Prop :=
  match snd f with FxCall r _ => (r < 256)%N | _ => True end.

Record ranged (g : codegen) : Prop := mkRanged {
  rg_code : Forall in_range (g_code g);
  rg_constants : ids_fit (g_constants g);
  rg_upcalls : ids_fit (g_upcalls g);
  rg_fixups : Forall fixup_fits (g_fixups g)
}.

Lemma ids_fit_get {K V} (eqb : K -> K -> bool) (m : @idmap K V) k v i :
  ids_fit m -> id_get eqb m k = Some (v, i) -> (i < 65536)%N.
Proof.
  induction 1 as [|[k' e] m H _ IH]; cbn [id_get]; [discriminate|].
  destruct (eqb k' k); [|exact IH]. intros E. injection E as ->. exact H.
Qed.

Lemma ids_fit_hm {K V} (eqb : K -> K -> bool) (m : @idmap K V) k e : ids_fit m -> (snd e < 65536)%N ->
  ids_fit (hm_insert eqb m k e).
Proof.
  intros H He. induction H as [|[k' e'] m H1 H2 IH]; cbn [hm_insert].
  - repeat constructor. exact He.
  - destruct (eqb k' k); constructor; auto.
Qed.

Lemma ids_fit_insert {K V} (eqb : K -> K -> bool) (m m' : @idmap K V) k v o i : ids_fit m ->
  id_insert eqb u16_ids m k v = Some (m', (o, i)) -> ids_fit m' /\ (i < 65536)%N.
Proof.
  intros H. unfold id_insert, u16_ids. destruct (id_get eqb m k) as [[p j]|] eqn:E.
  - intros X. injection X as <- _ <-. pose proof (ids_fit_get _ _ _ _ _ H E). split; [|assumption].
    apply ids_fit_hm; assumption.
  - destruct (N.ltb_spec (N.of_nat (id_len m)) 65536); [|discriminate].
    intros X. injection X as <- _ <-. split; [|assumption]. apply ids_fit_hm; assumption.
Qed.

Lemma Forall_upd {A} (P : A -> Prop) l i x : Forall P l -> P x -> Forall P (upd l i x).
Proof.
  intros H Px. revert i. induction H as [|a l Pa HL IH]; intros [|i]; cbn [upd]; constructor; auto.
Qed.

Lemma rg_emit i pos g : ranged g -> in_range i -> ranged (emit i pos g).
Proof.
  intros [A B C D] I. split; try assumption. cbn [emit with_code g_code]. apply Forall_app. auto.
Qed.
Lemma rg_patch a i g : ranged g -> in_range i -> ranged (patch a i g).
Proof. intros [A B C D] I. split; try assumption. apply Forall_upd; assumption. Qed.
Lemma rg_fixup a f g : ranged g -> fixup_fits (a, f) -> ranged (add_fixup a f g).
Proof. intros [A B C D] I. split; try assumption. constructor; assumption. Qed.
Lemma rg_mark a g : ranged g -> ranged (mark_statement_start a g).
Proof. intros [A B C D]. split; assumption. Qed.
Lemma rg_args a l g : ranged g -> ranged (set_arg_linecols a l g).
Proof. intros [A B C D]. split; assumption. Qed.
Lemma rg_define k s e g : ranged g -> ranged (define_user_callable k s e g).
Proof. intros [A B C D]. split; assumption. Qed.
Lemma rg_label k a g : ranged g -> ranged (fst (define_label k a g)).
Proof. intros [A B C D]. split; assumption. Qed.
Lemma rg_pop g : ranged g -> ranged (pop_eof g).
Proof.
  intros [A B C D]. unfold pop_eof. destruct (g_code g) eqn:E; [split; try assumption; rewrite E; constructor|].
  split; try assumption. cbn [with_code g_code]. rewrite <- E. rewrite <- E in A. clear -A.
  induction A as [|a l Pa H IH]; [constructor|]. destruct l; [constructor|].
  change (removelast (a :: i :: l)) with (a :: removelast (i :: l)). constructor; assumption.
Qed.
Lemma rg_new : ranged codegen_new.
Proof. split; constructor. Qed.

(** * Registers and other operands *)

Lemma local_fits i r : register_local i = Some r -> (r < 256)%N.
Proof. unfold register_local. destruct (_ <=? _)%N eqn:E; [|discriminate]. intros X. injection X as <-. apply N.leb_le in E. unfold max_register in E. lia. Qed.
Lemma global_fits i r : register_global i = Some r -> (r < 256)%N.
Proof. unfold register_global. destruct (_ <? _)%N eqn:E; [|discriminate]. intros X. injection X as <-. apply N.ltb_lt in E. unfold max_global in E. lia. Qed.

Lemma get_var_fits v t mk s r p : (forall i r, mk i = Some r -> (r < 256)%N) ->
  get_var v t mk s = Ok (r, p) -> (r < 256)%N.
Proof.
  intros M. unfold get_var. destruct (id_get _ _ _) as [[q i]|]; [|discriminate].
  destruct (accepts _ _); [|discriminate]. destruct (mk i) eqn:E; [|discriminate].
  intros X. apply Ok_pair in X as [<- _]. eauto.
Qed.
Lemma put_var_fits k p t mk s t' r : (forall i r, mk i = Some r -> (r < 256)%N) ->
  put_var k p t mk s = Some (t', Ok r) -> (r < 256)%N.
Proof.
  intros M. unfold put_var. destruct (id_insert _ _ _ _ _) as [[m [[q|] i]]|]; try discriminate.
  destruct (mk i) eqn:E; [|discriminate]. intros X. assert (n = r) by congruence. subst. eauto.
Qed.
Lemma lookup_fits l v r p : get_local_or_global l v = Ok (r, p) -> (r < 256)%N.
Proof.
  unfold get_local_or_global. destruct (get_var _ _ _ _) as [[r' p']|[]] eqn:E; try discriminate.
  - intros X. apply Ok_pair in X as [<- _]. eapply get_var_fits; [exact local_fits|exact E].
  - intros X. eapply get_var_fits; [exact global_fits|exact X].
Qed.
Lemma put_local_fits l k p l' r : put_local l k p = Some (l', Ok r) -> (r < 256)%N.
Proof.
  unfold put_local. destruct (put_var _ _ _ _ _) as [[t x]|] eqn:E; [|discriminate].
  intros X. assert (x = Ok r) by congruence. subst. eapply put_var_fits; [exact local_fits|exact E].
Qed.
Lemma put_global_fits g k p g' r : put_global g k p = Some (g', Ok r) -> (r < 256)%N.
Proof.
  unfold put_global. destruct (put_var _ _ _ _ _) as [[t x]|] eqn:E; [|discriminate].
  intros X. assert (x = Ok r) by congruence. subst. eapply put_var_fits; [exact global_fits|exact E].
Qed.
Lemma temp_fits n t r : temp_register n t = Ok r -> (r < 256)%N.
Proof.
  unfold temp_register. destruct (_ <? _)%N; [|discriminate]. destruct (register_local _) eqn:E; [|discriminate].
  intros X. apply Ok_inj in X. subst. eapply local_fits, E.
Qed.
Lemma alloc_fits s t r s' t' : scope_alloc s t = Ok (r, s', t') -> (r < 256)%N.
Proof.
  unfold scope_alloc. destruct (_ <? _)%N; [|discriminate]. destruct (temp_register _ _) eqn:E; [|discriminate].
  intros X. assert (a = r) by congruence. subst. eapply temp_fits, E.
Qed.
Lemma first_fits s r : scope_first s = Ok r -> (r < 256)%N.
Proof. apply temp_fits. Qed.
Lemma reserve_fits l r l' : reserve_temp l = Ok (r, l') -> (r < 256)%N.
Proof.
  unfold reserve_temp. intros H.
  repeat match type of H with
  | context [match ?e with _ => _ end] => destruct e eqn:?; try discriminate H
  end;
  apply Ok_pair in H as [<- _]; eauto using local_fits, temp_fits.
Qed.

Lemma etype_code_lt t : (etype_code t < 4)%N.
Proof. destruct t; cbn; lia. Qed.
Lemma vararg_fits v : (vararg_make v < 65536)%N.
Proof. destruct v as [[]|[] []|[]]; cbn; lia. Qed.
Lemma packed_fits t n p : packed_new t n = Some p -> (p < 256)%N.
Proof.
  unfold packed_new. destruct (N.ltb_spec 15 n); [discriminate|].
  intros X. assert (p = N.lor (N.shiftl (etype_code t) 4) (N.land n 15)) by congruence. subst.
  assert (C : (n = 0 \/ n = 1 \/ n = 2 \/ n = 3 \/ n = 4 \/ n = 5 \/ n = 6 \/ n = 7 \/ n = 8 \/ n = 9 \/
    n = 10 \/ n = 11 \/ n = 12 \/ n = 13 \/ n = 14 \/ n = 15)%N) by lia.
  destruct t; repeat (destruct C as [->|C]; [cbn; lia|]); subst; cbn; lia.
Qed.
Lemma target_fits a pos t : make_target a pos = COk t -> (t < 65536)%N.
Proof.
  unfold make_target. destruct (N.ltb_spec (N.of_nat a) 65536); [|discriminate].
  intros X. apply COk_inj in X. subst. assumption.
Qed.

(** * Steps of the compiler *)

Lemma constant_wp c pos g (Q : _ -> Prop) : ranged g ->
  (forall g' i, ranged g' -> (i < 65536)%N -> Q (g', i)) -> wp (get_constant c pos g) Q.
Proof.
  intros [A B C D] H. unfold get_constant. destruct (id_get _ _ _) as [[t i]|] eqn:E; cbn [wp].
  - apply H; [split; assumption|]. eapply ids_fit_get; [exact B|exact E].
  - destruct (id_insert _ _ _ _ _) as [[m [o i]]|] eqn:F; cbn [wp]; auto.
    destruct (ids_fit_insert _ _ _ _ _ _ _ B F). apply H; [split; assumption|assumption].
Qed.
Lemma upcall_wp k t pos g (Q : _ -> Prop) : ranged g ->
  (forall g' i, ranged g' -> (i < 65536)%N -> Q (g', i)) -> wp (get_upcall k t pos g) Q.
Proof.
  intros [A B C D] H. unfold get_upcall. destruct (id_get _ _ _) as [[t' i]|] eqn:E; cbn [wp].
  - apply H; [split; assumption|]. eapply ids_fit_get; [exact C|exact E].
  - destruct (id_insert _ _ _ _ _) as [[m [o i]]|] eqn:F; cbn [wp]; auto.
    destruct (ids_fit_insert _ _ _ _ _ _ _ C F). apply H; [split; assumption|assumption].
Qed.
Lemma target_wp a pos (Q : _ -> Prop) : (forall t, (t < 65536)%N -> Q t) -> wp (make_target a pos) Q.
Proof. intros H. destruct (make_target a pos) eqn:E; cbn [wp]; auto. apply H. eapply target_fits, E. Qed.

Lemma emit_value_wp r d pos g (Q : _ -> Prop) : ranged g -> (r < 256)%N -> (forall g', ranged g' -> Q g') ->
  wp (emit_value r d pos g) Q.
Proof.
  intros R L H. unfold emit_value. destruct d as [b|f|z|s].
  - cbn [wp]. apply H, rg_emit; [exact R|]. destruct b; cbn [in_range]; lia.
  - apply wp_bind, constant_wp; [exact R|]. intros g' i R' I. cbn [wp]. apply H, rg_emit; cbn [in_range]; auto.
  - destruct (_ && _) eqn:E.
    + cbn [wp]. apply H, rg_emit; [exact R|]. cbn [in_range]. lia.
    + apply wp_bind, constant_wp; [exact R|]. intros g' i R' I. cbn [wp]. apply H, rg_emit; cbn [in_range]; auto.
  - apply wp_bind, constant_wp; [exact R|]. intros g' i R' I. cbn [wp]. apply H, rg_emit; cbn [in_range]; auto.
Qed.

Lemma default_range r t : (r < 256)%N -> in_range (default_instr r t).
Proof. destruct t; cbn [default_instr in_range]; auto; intros; split; auto; lia. Qed.
Lemma upcall_range md i r : (i < 65536)%N -> (r < 256)%N -> in_range (upcall_instr md i r).
Proof. unfold upcall_instr. destruct (md_async md); cbn [in_range]; auto. Qed.

Ltac fits :=
  solve [ assumption | exact I
        | eauto using local_fits, global_fits, lookup_fits, put_local_fits, put_global_fits, temp_fits,
            alloc_fits, first_fits, reserve_fits, vararg_fits, packed_fits, default_range, upcall_range
        | lia ].
Ltac rg1 :=
  match goal with
  | |- ranged (fst (_, _)) => cbn [fst]
  | |- ranged (s_gen (_, _)) => unfold s_gen; cbn [fst]
  | |- ranged (t_gen (set_gen _ _)) => cbn [t_gen set_gen]
  | |- ranged (emit _ _ _) => apply rg_emit
  | |- ranged (patch _ _ _) => apply rg_patch
  | |- ranged (add_fixup _ _ _) => apply rg_fixup
  | |- ranged (mark_statement_start _ _) => apply rg_mark
  | |- ranged (set_arg_linecols _ _ _) => apply rg_args
  | |- ranged (define_user_callable _ _ _ _) => apply rg_define
  | |- ranged (emit_default _ _ _ _) => unfold emit_default
  | |- ranged (if ?b then _ else _) => destruct b
  | |- ranged _ => assumption
  | |- in_range (default_instr _ _) => apply default_range
  | |- in_range (upcall_instr _ _ _) => apply upcall_range
  | |- in_range _ => assumption
  | |- in_range _ => progress cbn [in_range]
  | |- fixup_fits _ => cbn [fixup_fits snd]
  | |- _ /\ _ => split
  | |- True => exact I
  | |- (_ < _)%N => fits
  end.
Ltac rg := repeat rg1.

(** Expressions. *)
Definition ckeeps (c : closure) : Prop := forall r st (Q : _ -> Prop), (r < 256)%N -> ranged (fst st) ->
  (forall st' t, ranged (fst st') -> Q (st', t)) -> wp (c r st) Q.

Ltac wstep :=
  match goal with
  | |- wp (COk _) _ => cbn [wp]
  | |- wp (CErr _) _ => exact I
  | |- wp CPanic _ => exact I
  | |- wp (bind _ _) _ => apply wp_bind
  | |- wp (map_error _ _) _ => apply wp_map_error
  | |- wp (make_target _ _) _ => apply target_wp; intros
  | |- wp (target_at _ _) _ => apply target_wp; intros
  | |- wp (get_constant _ _ _) _ => apply constant_wp; [rg|intros]
  | |- wp (get_upcall _ _ _ _) _ => apply upcall_wp; [rg|intros]
  | |- wp (emit_value _ _ _ _) _ => apply emit_value_wp; [rg|fits|intros]
  | |- wp (match ?e with _ => _ end) _ => destruct e eqn:?
  end; cbn beta iota.

Section Expr.
Variable ls : lsyms.

Lemma open_wp st (Q : _ -> Prop) : (forall s, Q s) -> wp (open_scope ls st) Q.
Proof. intros H. unfold open_scope. destruct (temp_scope _ _); cbn [wp]; auto. Qed.
Lemma alloc_wp s pos st (Q : _ -> Prop) : ranged (fst st) ->
  (forall r s' st', (r < 256)%N -> ranged (fst st') -> Q (r, s', st')) -> wp (alloc s pos st) Q.
Proof.
  intros R H. unfold alloc. destruct (scope_alloc _ _) as [[[r s'] t]|] eqn:E; cbn [wp]; auto.
  apply H; [fits|exact R].
Qed.

Ltac estep :=
  first [ wstep
        | match goal with
          | |- wp (open_scope _ _) _ => apply open_wp; intros ?
          | |- wp (alloc _ _ _) _ => apply alloc_wp; [rg|intros]
          end ]; cbn beta iota.

Lemma unary_wp o pos reg t st (Q : _ -> Prop) : (reg < 256)%N -> ranged (fst st) ->
  (forall st' t, ranged (fst st') -> Q (st', t)) -> wp (apply_unary ls o pos reg t st) Q.
Proof.
  intros L R H. unfold apply_unary, e_emit, close. repeat estep; try (apply H; rg); destruct o; exact I.
Qed.

Lemma resolve_numeric_rg r lt rt_ rtt rpos op_pos g g' t : ranged g -> (r < 256)%N -> (rt_ < 256)%N ->
  resolve_numeric r lt rt_ rtt rpos op_pos g = Some (g', t) -> ranged g'.
Proof.
  intros R A B. unfold resolve_numeric. destruct lt, rtt; intros H; try discriminate H;
    injection H as <- _; rg.
Qed.

Lemma binary_op_wp o pos reg t rtemp rt rpos g (Q : _ -> Prop) : (reg < 256)%N -> (rtemp < 256)%N ->
  ranged g -> (forall g' t, ranged g' -> Q (g', t)) -> wp (binary_op o pos reg t rtemp rt rpos g) Q.
Proof.
  intros L1 L2 R H. unfold binary_op. cbn zeta. repeat wstep; try (apply H; rg);
    (eapply resolve_numeric_rg; [exact R|exact L1|exact L2|eassumption]).
Qed.
Lemma relational_op_wp o pos reg t rtemp rt rpos g (Q : _ -> Prop) : (reg < 256)%N -> (rtemp < 256)%N ->
  ranged g -> (forall g' t, ranged g' -> Q (g', t)) -> wp (relational_op o pos reg t rtemp rt rpos g) Q.
Proof.
  intros L1 L2 R H. unfold relational_op. cbn zeta. repeat wstep; try (apply H; rg);
    (eapply resolve_numeric_rg; [exact R|exact L1|exact L2|eassumption]).
Qed.

Lemma binary_wp o pos rhs rpos reg t st (Q : _ -> Prop) : ckeeps rhs -> (reg < 256)%N -> ranged (fst st) ->
  (forall st' t, ranged (fst st') -> Q (st', t)) -> wp (apply_binary ls o pos rhs rpos reg t st) Q.
Proof.
  intros C L R H. unfold apply_binary, close. repeat estep. apply C; [fits|rg|]. intros st1 t1 R1.
  repeat estep. destruct (is_relational o).
  - apply relational_op_wp; [fits|fits|rg|]. intros g2 t2 R2. repeat estep. apply H. rg.
  - apply binary_op_wp; [fits|fits|rg|]. intros g2 t2 R2. repeat estep. apply H. rg.
Qed.

Lemma as_type_wp c p reg t st (Q : _ -> Prop) : ckeeps c -> (reg < 256)%N -> ranged (fst st) ->
  (forall st', ranged (fst st') -> Q st') -> wp (as_type c p reg t st) Q.
Proof.
  intros C L R H. unfold as_type. repeat estep. apply C; [fits|rg|]. intros st1 t1 R1. repeat estep.
  - apply H. rg.
  - apply H. cbn [fst]. destruct t1, t; cbn [cast_numerical] in *; try discriminate; 
      match goal with E : Some _ = Some _ |- _ => injection E as <- end; rg.
Qed.

Definition oa_keeps (o : option (expr * closure)) : Prop :=
  match o with Some (_, c) => ckeeps c | None => True end.
Definition first_ok (o : option N) : Prop := match o with Some r => (r < 256)%N | None => True end.

Lemma integer_exprs_wp es : forall s pos first st (Q : _ -> Prop), Forall oa_keeps es -> first_ok first ->
  ranged (fst st) -> (forall o s' st', first_ok o -> ranged (fst st') -> Q (o, s', st')) ->
  wp (integer_exprs es s pos first st) Q.
Proof.
  induction es as [|[[e c]|] es IH]; intros s pos first st Q F O R H; cbn [integer_exprs]; repeat estep.
  - apply H; assumption.
  - inversion F as [|? ? C F']; subst. cbn [oa_keeps] in C. apply as_type_wp; [exact C|fits|rg|].
    intros st2 R2. apply IH; [exact F'| |exact R2|exact H]. destruct first; cbn [first_ok] in *; fits.
Qed.

Definition a_keeps (a : carg) : Prop := oa_keeps (fst (fst a)).

Lemma array_access_wp reg kp arr t n args st (Q : _ -> Prop) : Forall a_keeps args ->
  (reg < 256)%N -> (arr < 256)%N -> ranged (fst st) ->
  (forall st' t, ranged (fst st') -> Q (st', t)) -> wp (array_access ls reg kp arr t n args st) Q.
Proof.
  intros F L1 L2 R H. unfold array_access, e_emit, close. repeat estep.
  apply integer_exprs_wp; [|exact I|rg|].
  - clear -F. induction F; constructor; auto.
  - intros [f|] s' st' O R'; repeat estep. cbn [first_ok] in O. apply H. rg.
Qed.

(** Arguments. *)
Definition aranged (a : argst) : Prop := ranged (fst (snd (fst a))).

Lemma arg_alloc_wp pos a (Q : _ -> Prop) : aranged a ->
  (forall r a', (r < 256)%N -> aranged a' -> Q (r, a')) -> wp (arg_alloc pos a) Q.
Proof.
  destruct a as [[s st] l]. intros R H. unfold arg_alloc. repeat estep. apply H; [fits|]. unfold aranged. rg.
Qed.
Lemma arg_emit_rg i pos a : aranged a -> in_range i -> aranged (arg_emit i pos a).
Proof. destruct a as [[s st] l]. unfold aranged, arg_emit, e_emit. cbn [fst snd]. intros. rg. Qed.
Lemma arg_compile_wp c r a (Q : _ -> Prop) : ckeeps c -> (r < 256)%N -> aranged a ->
  (forall a' t, aranged a' -> Q (a', t)) -> wp (arg_compile c r a) Q.
Proof.
  destruct a as [[s st] l]. intros C L R H. unfold arg_compile. repeat estep. apply C; [fits|exact R|].
  intros st1 t1 R1. repeat estep. apply H. exact R1.
Qed.
Lemma arg_compile_as_wp c p r t a (Q : _ -> Prop) : ckeeps c -> (r < 256)%N -> aranged a ->
  (forall a', aranged a' -> Q a') -> wp (arg_compile_as c p r t a) Q.
Proof.
  destruct a as [[s st] l]. intros C L R H. unfold arg_compile_as. repeat estep.
  apply as_type_wp; [exact C|fits|exact R|]. intros st1 R1. repeat estep. apply H. exact R1.
Qed.
Lemma sep_wp md syn e sep p (Q : _ -> Prop) : Q tt -> wp (validate_argsep md syn e sep p) Q.
Proof. intros H. unfold validate_argsep. repeat wstep; auto. Qed.
Lemma lookup_ref_wp md b d v p pb (Q : _ -> Prop) : (forall r t, (r < 256)%N -> Q (r, t)) ->
  wp (lookup_ref ls md b d v p pb) Q.
Proof. intros H. unfold lookup_ref. repeat wstep; apply H; fits. Qed.

Ltac astep :=
  first [ estep
        | match goal with
          | |- wp (arg_alloc _ _) _ => apply arg_alloc_wp; [assumption|intros]
          | |- wp (validate_argsep _ _ _ _ _) _ => apply sep_wp
          | |- wp (lookup_ref _ _ _ _ _ _ _) _ => apply lookup_ref_wp; intros
          | |- wp (arg_compile_as _ _ _ _ _) _ => apply arg_compile_as_wp; [assumption|fits|assumption|intros]
          | |- wp (arg_compile _ _ _) _ => apply arg_compile_wp; [assumption|fits|assumption|intros]
          end ]; cbn beta iota.
Ltac aemit := apply arg_emit_rg; [assumption|rg].

Lemma singular_arg_wp md kp syn e args a (Q : _ -> Prop) : Forall a_keeps args -> aranged a ->
  (forall args' a', Forall a_keeps args' -> aranged a' -> Q (args', a')) ->
  wp (singular_arg ls md kp syn e args a) Q.
Proof.
  intros F R H. unfold singular_arg. destruct syn.
  - destruct args as [|[[[[x c]|] sp1] sp] args]; repeat astep. inversion F as [|? ? C F']; subst.
    cbn in C. repeat astep. apply H; assumption.
  - destruct args as [|[[[[x c]|] sp1] sp] args]; repeat astep. inversion F as [|? ? C F']; subst.
    apply H; [assumption|]. aemit.
  - destruct args as [|[[[[x c]|] sp1] sp] args]; repeat astep.
    + apply H; [constructor|]. aemit.
    + inversion F as [|? ? C F']; subst. cbn in C. repeat astep. apply H; [assumption|]. aemit.
    + inversion F as [|? ? C F']; subst. apply H; [assumption|]. aemit.
  - destruct args as [|[[[[x c]|] sp1] sp] args]; repeat astep.
    + apply H; [constructor|]. aemit.
    + inversion F as [|? ? C F']; subst. cbn in C. repeat astep. apply H; [assumption|]. aemit.
    + inversion F as [|? ? C F']; subst. apply H; [assumption|]. aemit.
Qed.

Lemma singular_args_wp md kp one syns : forall args a (Q : _ -> Prop), Forall a_keeps args -> aranged a ->
  (forall args' a', Forall a_keeps args' -> aranged a' -> Q (args', a')) ->
  wp (singular_args ls md kp one syns args a) Q.
Proof.
  induction syns as [|syn syns IH]; intros args a Q F R H; cbn [singular_args]; repeat wstep.
  - apply H; assumption.
  - apply singular_arg_wp; [exact F|exact R|]. intros args' a' F' R'. apply IH; assumption.
Qed.

Lemma plain_args_wp md syn t args : forall a (Q : _ -> Prop), Forall a_keeps args -> aranged a ->
  (forall a', aranged a' -> Q a') -> wp (plain_args md syn t args a) Q.
Proof.
  induction args as [|[[[[x c]|] sep] sp] args IH]; intros a Q F R H; cbn [plain_args]; repeat astep; auto.
  inversion F as [|? ? C F']; subst. cbn in C. repeat astep. apply IH; assumption.
Qed.

Lemma tagged_args_wp md rp args : forall a (Q : _ -> Prop), Forall a_keeps args -> aranged a ->
  (forall a', aranged a' -> Q a') -> wp (tagged_args ls md rp args a) Q.
Proof.
  induction args as [|[[[[x c]|] sp1] sp] args IH]; intros a Q F R H; cbn [tagged_args].
  1: cbn [wp]; auto.
  all: inversion F as [|? ? C F']; subst; cbn in C; repeat astep;
    (apply IH; [assumption| |assumption]); repeat (apply arg_emit_rg; [|rg]); assumption.
Qed.

Lemma compile_args_wp md kp args st (Q : _ -> Prop) : Forall a_keeps args -> ranged (fst st) ->
  (forall st' r l, ranged (fst st') -> (r < 256)%N -> Q (st', r, l)) -> wp (compile_args ls md kp args st) Q.
Proof.
  intros F R H. unfold compile_args. repeat estep. apply singular_args_wp; [exact F|exact R|].
  intros rest a F' R'. repeat wstep.
  all: try (destruct a as [[? ?] ?]; repeat estep; apply H; [exact R'|fits]).
  all: try (apply plain_args_wp; [assumption|assumption|]; intros ? R''; repeat wstep;
            apply H; [exact R''|fits]).
  all: try (repeat astep).
  all: try (apply tagged_args_wp; [assumption| |]; [try assumption; aemit|]; intros ? R''; repeat wstep;
            apply H; [exact R''|fits]).
Qed.

Lemma compile_call_wp v p args reg st (Q : _ -> Prop) : Forall a_keeps args -> (reg < 256)%N ->
  ranged (fst st) -> (forall st' t, ranged (fst st') -> Q (st', t)) ->
  wp (compile_call ls v p args reg st) Q.
Proof.
  intros F L R H. unfold compile_call, close. cbn zeta. repeat estep.
  - apply compile_args_wp; [exact F|rg|]. intros st9 r9 l9 R9 L9. repeat estep; apply H; rg.
  - apply array_access_wp; [exact F|fits|fits|rg|exact H].
Qed.

Lemma compile_symbol_wp v p : ckeeps (compile_symbol ls v p).
Proof.
  intros reg st Q L R H. unfold compile_symbol, close, e_emit. cbn zeta. repeat estep; apply H; rg.
Qed.

Lemma compile_expr_wp e : ckeeps (compile_expr ls e).
Proof.
  induction e as [b p|b p|z p|s p|v p|o l r p IHl IHr|o e p IHe|v p args IH] using expr_rect';
    intros reg st Q L R H; cbn [compile_expr].
  1-4: unfold compile_literal; repeat estep; apply H; rg.
  - apply compile_symbol_wp; assumption.
  - apply wp_bind, IHl; [exact L|exact R|]. intros st1 t1 R1. apply binary_wp; assumption.
  - apply wp_bind, IHe; [exact L|exact R|]. intros st1 t1 R1. apply unary_wp; assumption.
  - apply compile_call_wp; try assumption. clear -IH. induction IH as [|[[[e|] s] q] args IH1 IH2]; constructor; auto.
Qed.

Lemma compile_as_wp e reg t st (Q : _ -> Prop) : (reg < 256)%N -> ranged (fst st) ->
  (forall st', ranged (fst st') -> Q st') -> wp (compile_expr_as_type ls e reg t st) Q.
Proof. apply as_type_wp, compile_expr_wp. Qed.

Lemma exprs_keep es : Forall oa_keeps (map (fun e => Some (e, compile_expr ls e)) es).
Proof. induction es; constructor; auto. apply compile_expr_wp. Qed.
Lemma closures_keep args : Forall a_keeps (map (with_closure ls) args).
Proof. induction args as [|[[[e|] s] q] args IH]; constructor; auto; [apply compile_expr_wp|exact I]. Qed.
End Expr.

Ltac estep :=
  first [ wstep
        | match goal with
          | |- wp (open_scope _ _) _ => apply open_wp; intros ?
          | |- wp (alloc _ _ _) _ => apply alloc_wp; [rg|intros]
          | |- wp (compile_expr_as_type _ _ _ _ _) _ => apply compile_as_wp; [fits|rg|intros]
          | |- wp (compile_expr _ _ _ _) _ => apply compile_expr_wp; [fits|rg|intros]
          | |- wp (of_syms _ _) _ => unfold of_syms
          end ]; cbn beta iota.

Definition bkeeps (body : block) : Prop := forall x (Q : _ -> Prop), ranged (s_gen x) ->
  (forall x', ranged (s_gen x') -> Q x') -> wp (body x) Q.

Ltac sunfold := unfold s_emit, s_patch, freeze, unfreeze, close, e_emit, e_patch, s_gen in *; cbn [fst snd] in *.
Ltac srg := repeat first [ progress sunfold | rg1 | progress cbn [t_gen set_gen set_do set_for set_exits set_current] ].

Lemma assignment_wp v p e s (Q : _ -> Prop) : ranged (fst s) -> (forall s', ranged (fst s') -> Q s') ->
  wp (compile_assignment v p e s) Q.
Proof.
  intros R H. unfold compile_assignment, close, e_emit. cbn zeta. repeat estep; apply H; rg.
Qed.
Lemma s_assignment_wp v p e : bkeeps (s_assignment v p e).
Proof.
  intros x Q R H. unfold s_assignment. apply wp_bind, assignment_wp; [exact R|]. intros [g l] R'. apply H. srg.
Qed.
Lemma guard_wp e x (Q : _ -> Prop) : ranged (s_gen x) ->
  (forall r x', (r < 256)%N -> ranged (s_gen x') -> Q (r, x')) -> wp (guard_expr e x) Q.
Proof.
  intros R H. unfold guard_expr. repeat estep. apply H; [fits|]. srg.
Qed.
Lemma patch_jumps_wp l t : bkeeps (patch_jumps l t).
Proof.
  induction l as [|[a p] l IH]; intros x Q R H; cbn [patch_jumps]; repeat estep; auto.
  apply IH; [srg|exact H].
Qed.

Ltac sstep :=
  first [ estep
        | match goal with
          | |- wp (guard_expr _ _) _ => apply guard_wp; [srg|intros]
          | |- wp (s_assignment _ _ _ _) _ => apply s_assignment_wp; [srg|intros]
          | |- wp (patch_jumps _ _ _) _ => apply patch_jumps_wp; [srg|intros]
          | B : bkeeps ?body |- wp (?body _) _ => apply B; [srg|intros]
          end ]; cbn beta iota.

Lemma while_wp e body : bkeeps body -> bkeeps (compile_while e body).
Proof. intros B x Q R H. unfold compile_while. cbn zeta. repeat sstep. apply H. srg. Qed.
Lemma do_wp g body : bkeeps body -> bkeeps (compile_do g body).
Proof.
  intros B x Q R H. unfold compile_do. cbn zeta. pose proof (while_wp) as W. destruct g; repeat sstep; auto.
  apply W; [exact B|srg|]. intros x1 R1. repeat sstep. auto.
Qed.
Lemma for_iterator_wp i p d : bkeeps (for_iterator i p d).
Proof. intros x Q R H. unfold for_iterator. repeat sstep; auto. Qed.
Lemma for_wp i p d s e n body : bkeeps body -> bkeeps (compile_for i p d s e n body).
Proof.
  intros B x Q R H. unfold compile_for. cbn zeta. apply wp_bind, for_iterator_wp; [exact R|]. intros x1 R1.
  repeat sstep. auto.
Qed.
Lemma branches_wp bs : forall ends x (Q : _ -> Prop), Forall (fun b => bkeeps (snd b)) bs -> ranged (s_gen x) ->
  (forall ends' x', ranged (s_gen x') -> Q (ends', x')) -> wp (compile_branches bs ends x) Q.
Proof.
  induction bs as [|[e body] bs IH]; intros ends x Q F R H; cbn [compile_branches]; cbn zeta.
  - cbn [wp]. auto.
  - inversion F as [|? ? B F']; subst. cbn [snd] in B. apply wp_bind, guard_wp; [exact R|]. intros r x1 L1 R1.
    cbn beta iota. apply wp_bind, B; [srg|]. intros x2 R2. destruct bs; repeat sstep; (apply IH; [exact F'|srg|exact H]).
Qed.
Lemma if_wp bs : Forall (fun b => bkeeps (snd b)) bs -> bkeeps (compile_if bs).
Proof.
  intros F x Q R H. unfold compile_if. apply wp_bind, branches_wp; [exact F|exact R|]. intros ends x1 R1.
  cbn beta iota. apply patch_jumps_wp; assumption.
Qed.

Lemma case_relop_wp p tr tt_ rr rt o d g (Q : _ -> Prop) : ranged g -> (tr < 256)%N -> (rr < 256)%N -> (d < 256)%N ->
  (forall g', ranged g' -> Q g') -> wp (compile_case_relop p tr tt_ rr rt o d g) Q.
Proof.
  intros R A B C H. unfold compile_case_relop. destruct tt_, rt; repeat wstep; apply H; rg.
Qed.
Lemma case_compare_wp l p tr tt_ e o a b c st (Q : _ -> Prop) : ranged (fst st) ->
  (tr < 256)%N -> (a < 256)%N -> (b < 256)%N -> (c < 256)%N ->
  (forall st', ranged (fst st') -> Q st') -> wp (case_compare l p tr tt_ e o a b c st) Q.
Proof.
  intros R T A B C H. unfold case_compare, e_emit. cbn zeta. repeat estep.
  apply case_relop_wp; [rg|fits|fits|fits|]. intros g' R'. repeat estep. apply H. rg.
Qed.
Lemma case_guard_wp l tr tt_ g st (Q : _ -> Prop) : ranged (fst st) -> (tr < 256)%N ->
  (forall c p st', (c < 256)%N -> ranged (fst st') -> Q (c, p, st')) ->
  wp (compile_case_guard l tr tt_ g st) Q.
Proof.
  intros R T H. unfold compile_case_guard. destruct g; repeat estep.
  - apply case_compare_wp; try fits. intros. repeat estep. apply H; [fits|srg].
  - apply case_compare_wp; try fits. intros. repeat estep. apply case_compare_wp; try fits. intros. repeat estep.
    apply H; [fits|srg].
Qed.
Lemma case_guards_wp l tr tt_ gs : forall jumps st (Q : _ -> Prop), ranged (fst st) -> (tr < 256)%N ->
  (forall j st', ranged (fst st') -> Q (j, st')) -> wp (case_guards l tr tt_ gs jumps st) Q.
Proof.
  induction gs as [|g gs IH]; intros jumps st Q R T H; cbn [case_guards]; cbn zeta; repeat estep; auto.
  apply case_guard_wp; [exact R|exact T|]. intros c p st1 C R1. repeat estep.
  apply IH; [srg|exact T|exact H].
Qed.
Lemma patch_next_wp n t st (Q : _ -> Prop) : ranged (fst st) -> (forall st', ranged (fst st') -> Q st') ->
  wp (patch_next n t st) Q.
Proof. intros R H. unfold patch_next. repeat estep; apply H; srg. Qed.
Lemma dispatch_wp l tr tt_ ep cs : forall next pend st (Q : _ -> Prop), ranged (fst st) -> (tr < 256)%N ->
  Forall (fun c => bkeeps (snd c)) cs -> Forall (fun p => bkeeps (fst (fst p))) pend ->
  (forall pend' n st', Forall (fun p => bkeeps (fst (fst p))) pend' -> ranged (fst st') -> Q (pend', n, st')) ->
  wp (select_dispatch l tr tt_ ep cs next pend st) Q.
Proof.
  induction cs as [|[gs body] cs IH]; intros next pend st Q R T F P H; cbn [select_dispatch]; cbn zeta.
  - cbn [wp]. auto.
  - inversion F as [|? ? B F']; subst. apply wp_bind, patch_next_wp; [exact R|]. intros st1 R1. destruct gs.
    + apply IH; [srg|exact T|exact F'| |exact H]. apply Forall_app. split; [exact P|repeat constructor; exact B].
    + apply wp_bind, case_guards_wp; [exact R1|exact T|]. intros j st2 R2. cbn beta iota.
      apply IH; [srg|exact T|exact F'| |exact H]. apply Forall_app. split; [exact P|repeat constructor; exact B].
Qed.
Lemma bodies_wp ep pend : forall ends x (Q : _ -> Prop), Forall (fun p => bkeeps (fst (fst p))) pend ->
  ranged (s_gen x) -> (forall e x', ranged (s_gen x') -> Q (e, x')) -> wp (select_bodies ep pend ends x) Q.
Proof.
  induction pend as [|[[body jumps] hn] pend IH]; intros ends x Q F R H; cbn [select_bodies].
  - cbn [wp]. auto.
  - inversion F as [|? ? B F']; subst. cbn [fst] in B. apply wp_bind, patch_jumps_wp; [exact R|]. intros x1 R1.
    apply wp_bind, B; [exact R1|]. intros x2 R2. destruct hn; (apply IH; [exact F'|srg|exact H]).
Qed.
Lemma fold_patch_rg l t : (t < 65536)%N -> forall x, ranged (s_gen x) ->
  ranged (s_gen (fold_left (fun x a => s_patch a (IJump t) x) l x)).
Proof. intros T. induction l as [|a l IH]; intros x R; cbn [fold_left]; [exact R|]. apply IH. srg. Qed.

Lemma select_wp e cs ep : Forall (fun b => bkeeps (snd b)) cs -> bkeeps (compile_select e cs ep).
Proof.
  intros F x Q R H. unfold compile_select. apply wp_bind. unfold of_syms.
  destruct (reserve_temp (snd x)) as [[tr l]|] eqn:E; [|exact I]. cbn [wp]. repeat estep.
  apply dispatch_wp; [assumption|fits|exact F|constructor|]. intros pend n st2 P R2. cbn beta iota zeta.
  repeat estep.
  all: try (apply bodies_wp; [exact P|srg|]; intros ends x3 R3; repeat estep; apply H; apply fold_patch_rg; [fits|srg]).
Qed.

Lemma result_wp n k p : bkeeps (define_result n k p).
Proof. intros x Q R H. unfold define_result. repeat estep; apply H; srg. Qed.
Lemma user_callable_wp n p ps body ep : bkeeps body -> bkeeps (compile_user_callable n p ps body ep).
Proof.
  intros B x Q R H. unfold compile_user_callable. cbn zeta. repeat sstep.
  apply result_wp; [srg|]. intros x1 R1. repeat sstep.
  destruct (define_params _ _ _) as [l1| |]; [|exact I|exact I]. cbn [wp].
  repeat sstep. apply H. srg.
Qed.
Lemma callable_wp n p ps body ep : bkeeps body -> bkeeps (compile_callable n p ps body ep).
Proof.
  intros B x Q R H. unfold compile_callable. apply wp_bind.
  destruct (declare_callable _ _ _ _) as [l| |]; [|exact I|exact I]. cbn [wp]. repeat sstep.
  apply user_callable_wp; [exact B|srg|]. intros x1 R1. repeat sstep. apply H. srg.
Qed.

Lemma array_assignment_wp v p subs e : bkeeps (compile_array_assignment v p subs e).
Proof.
  intros x Q R H. unfold compile_array_assignment. cbn zeta. repeat sstep.
  apply integer_exprs_wp; [apply exprs_keep|exact I|rg|]. intros [f|] s9 st9 O R9; repeat sstep.
  cbn [first_ok] in O. apply H. srg.
Qed.

Lemma new_arg_wp v p s (Q : _ -> Prop) : ranged (fst s) -> (forall s', ranged (fst s') -> Q s') ->
  wp (define_new_arg v p s) Q.
Proof. intros R H. unfold define_new_arg. cbn zeta. repeat estep; apply H; rg. Qed.
Lemma define_ref_wp e s (Q : _ -> Prop) : ranged (fst s) -> (forall s', ranged (fst s') -> Q s') ->
  wp (define_ref e s) Q.
Proof. intros R H. unfold define_ref. repeat estep; auto. apply new_arg_wp; assumption. Qed.
Lemma define_singular_wp syns : forall args s (Q : _ -> Prop), ranged (fst s) ->
  (forall a s', ranged (fst s') -> Q (a, s')) -> wp (define_singular syns args s) Q.
Proof.
  induction syns as [|[] syns IH]; intros args s Q R H; cbn [define_singular]; repeat estep; auto.
  - apply define_ref_wp; [exact R|]. intros s1 R1. apply IH; assumption.
Qed.
Lemma define_repeated_wp args : forall s (Q : _ -> Prop), ranged (fst s) ->
  (forall s', ranged (fst s') -> Q s') -> wp (define_repeated args s) Q.
Proof.
  induction args as [|[[e sp1] p] args IH]; intros s Q R H; cbn [define_repeated]; repeat estep; auto.
  apply define_ref_wp; [exact R|]. intros s1 R1. apply IH; assumption.
Qed.
Lemma define_new_args_wp md p args s (Q : _ -> Prop) : ranged (fst s) ->
  (forall s', ranged (fst s') -> Q s') -> wp (define_new_args md p args s) Q.
Proof.
  intros R H. unfold define_new_args. repeat estep. apply define_singular_wp; [exact R|]. intros a s1 R1.
  repeat estep; auto. apply define_repeated_wp; assumption.
Qed.
Lemma call_stmt_wp v p args : bkeeps (compile_call_stmt v p args).
Proof.
  intros x Q R H. unfold compile_call_stmt. cbn zeta. repeat estep.
  apply define_new_args_wp; [exact R|]. intros [g l] R1. repeat estep.
  apply compile_args_wp; [apply closures_keep|srg|]. intros st r lc R2 L2. repeat estep.
  all: try (srg; fail). all: try (apply H; srg). 
Qed.

Lemma dim_register_fits n p b pr l r l' : dim_register n p b pr l = COk (r, l') -> (r < 256)%N.
Proof.
  unfold dim_register, ls_put_global. intros H.
  destruct (get_callable _ _); [discriminate H|]. destruct b.
  - destruct (contains_global _ _); [discriminate H|].
    destruct (put_global _ _ _) as [[g [r'|]]|] eqn:E; try discriminate H.
    apply COk_inj, pair_inj in H as [<- _]. fits.
  - destruct (contains_local _ _); [discriminate H|].
    destruct (put_local _ _ _) as [[g [r'|]]|] eqn:E; try discriminate H.
    apply COk_inj, pair_inj in H as [<- _]. fits.
Qed.
Lemma dim_wp n p b t : bkeeps (compile_dim n p b t).
Proof.
  intros x Q R H. unfold compile_dim. apply wp_bind.
  destruct (dim_register _ _ _ _ _) as [[r l]| |] eqn:E; [|exact I|exact I].
  pose proof (dim_register_fits _ _ _ _ _ _ _ E). cbn [wp]. apply H. srg.
Qed.
Lemma dim_array_wp n p b dims t : bkeeps (compile_dim_array n p b dims t).
Proof.
  intros x Q R H. unfold compile_dim_array. cbn zeta. apply wp_bind.
  destruct (dim_register _ _ _ _ _) as [[r l]| |] eqn:E; [|exact I|exact I].
  pose proof (dim_register_fits _ _ _ _ _ _ _ E). cbn [wp]. repeat sstep.
  apply integer_exprs_wp; [apply exprs_keep|exact I|srg|]. intros [f|] s9 st9 O R9; repeat sstep.
  cbn [first_ok] in O. apply H. srg.
Qed.
Lemma end_wp c p : bkeeps (compile_end c p).
Proof. intros x Q R H. unfold compile_end. cbn zeta. repeat sstep; srg; apply H; srg. Qed.

Lemma stmts_keep l : Forall (fun s => bkeeps (compile_stmt s)) l -> bkeeps (compile_stmts l).
Proof.
  induction 1 as [|s l B _ IH]; intros x Q R H; cbn [compile_stmts].
  - cbn [wp]. auto.
  - apply wp_bind, B; [exact R|]. intros x1 R1. apply IH; assumption.
Qed.

Lemma mark_from_rg s a x : ranged (s_gen x) -> ranged (s_gen (mark_from s a x)).
Proof. intros R. unfold mark_from. destruct (_ && _); srg. Qed.

Lemma bkeeps_marked s body : bkeeps body -> bkeeps (fun x => let* x' := body x in COk (mark_from s (s_pc x) x')).
Proof.
  intros B x Q R H. apply wp_bind, B; [exact R|]. intros x' R'. cbn [wp]. apply H, mark_from_rg, R'.
Qed.

Lemma bkeeps_eq body body' : (forall x, body' x = body x) -> bkeeps body -> bkeeps body'.
Proof. intros E B x Q R H. rewrite E. apply B; assumption. Qed.

Lemma exit_wp (f : block) : (forall x x', f x = COk x' -> exists i pos, s_gen x' = emit i pos (s_gen x) /\ in_range i) ->
  bkeeps f.
Proof.
  intros E x Q R H. destruct (f x) as [x'| |] eqn:F; [|exact I|exact I]. cbn [wp]. apply H.
  destruct (E _ _ F) as (i & pos & -> & I). apply rg_emit; assumption.
Qed.

Lemma stmt_keeps s : bkeeps (compile_stmt s).
Proof.
  induction s as [s Simple|n np ps body ep IH|g body IH|i ip d s0 e n body IH|bs IH|e cs ep IH|e body IH]
    using stmt_rect'; (eapply bkeeps_eq; [intros x; apply compile_stmt_eq|]).
  2: apply (bkeeps_marked (StCallable n np ps body ep)), callable_wp, stmts_keep, IH.
  2: apply (bkeeps_marked (StDo g body)), do_wp, stmts_keep, IH.
  2: apply (bkeeps_marked (StFor i ip d s0 e n body)), for_wp, stmts_keep, IH.
  2: { apply (bkeeps_marked (StIf bs)), if_wp. clear -IH. induction IH; constructor; auto. apply stmts_keep. assumption. }
  2: { apply (bkeeps_marked (StSelect e cs ep)), select_wp. clear -IH. induction IH; constructor; auto. apply stmts_keep. assumption. }
  2: apply (bkeeps_marked (StWhile e body)), while_wp, stmts_keep, IH.
  destruct s; try contradiction Simple.
  - apply (bkeeps_marked (StArrayAssignment v vpos subs e)), array_assignment_wp.
  - apply (bkeeps_marked (StAssignment v vpos e)), s_assignment_wp.
  - apply (bkeeps_marked (StCall v vpos args)), call_stmt_wp.
  - apply (bkeeps_marked (StData values)). intros x Q R H. unfold compile_data. apply wp_bind.
    destruct (data_values _); [|exact I|exact I]. cbn [wp]. apply H. exact R.
  - apply (bkeeps_marked (StDeclare name name_pos params)). intros x Q R H. unfold compile_declare.
    destruct (t_current _); [exact I|]. apply wp_bind.
    destruct (declare_callable _ _ _ _); [|exact I|exact I]. cbn [wp]. apply H. exact R.
  - apply (bkeeps_marked (StDim name name_pos shared t)), dim_wp.
  - apply (bkeeps_marked (StDimArray name name_pos shared dims t)), dim_array_wp.
  - apply (bkeeps_marked (StEnd code pos)), end_wp.
  - apply (bkeeps_marked (StExitDo pos)). intros x Q R H. unfold compile_exit_do.
    destruct (t_do _); [exact I|]. cbn [wp]. apply H. srg.
  - apply (bkeeps_marked (StExitFor pos)). intros x Q R H. unfold compile_exit_for.
    destruct (t_for _); [exact I|]. cbn [wp]. apply H. srg.
  - apply (bkeeps_marked (StExitFunction pos)). intros x Q R H. unfold compile_exit_callable.
    match goal with |- wp (if ?b then _ else _) _ => destruct b end; [|exact I]. cbn [wp]. apply H. srg.
  - apply (bkeeps_marked (StExitSub pos)). intros x Q R H. unfold compile_exit_callable.
    match goal with |- wp (if ?b then _ else _) _ => destruct b end; [|exact I]. cbn [wp]. apply H. srg.
  - apply (bkeeps_marked (StGosub target pos)). intros x Q R H. cbn [wp]. apply H. unfold emit_fixup. srg.
  - apply (bkeeps_marked (StGoto target pos)). intros x Q R H. cbn [wp]. apply H. unfold emit_fixup. srg.
  - apply (bkeeps_marked (StLabel name pos)). intros x Q R H. unfold compile_label.
    pose proof (rg_label (symkey name) (s_pc x) (s_gen x) R) as R'.
    destruct (define_label _ _ _) as [g []]; [|exact I]. cbn [wp]. apply H. exact R'.
  - apply (bkeeps_marked (StOnError o)). intros x Q R H. cbn [wp]. apply H.
    destruct o; unfold compile_on_error, emit_fixup; srg.
  - apply (bkeeps_marked (StReturn pos)). intros x Q R H. cbn [wp]. apply H. srg.
Qed.

Lemma stmts_ranged l x x' : compile_stmts l x = COk x' -> ranged (s_gen x) -> ranged (s_gen x').
Proof.
  intros H R. refine (wp_ok (compile_stmts l x) (fun y => ranged (s_gen y)) x' H _).
  apply (stmts_keep l); [|exact R|auto]. clear. induction l; constructor; auto using stmt_keeps.
Qed.

(** * Fixups and images *)

Lemma resolve_range g pos f i a : resolve_fixup g pos f = COk i -> fixup_fits (a, f) -> in_range i.
Proof.
  intros H F. destruct f; cbn [resolve_fixup fixup_fits snd] in *.
  - destruct (assoc _ _) as [[t e]|]; [|discriminate H]. apply bind_ok in H as (n & E & H). apply COk_inj in H.
    subst i. split; [exact F|]. eapply target_fits, E.
  - destruct (assoc _ _) as [t|]; [|discriminate H]. apply bind_ok in H as (n & E & H). apply COk_inj in H.
    subst i. eapply target_fits, E.
  - destruct (assoc _ _) as [t|]; [|discriminate H]. apply bind_ok in H as (n & E & H). apply COk_inj in H.
    subst i. eapply target_fits, E.
  - destruct (assoc _ _) as [t|]; [|discriminate H]. apply bind_ok in H as (n & E & H). apply COk_inj in H.
    subst i. eapply target_fits, E.
Qed.

Lemma fixup_list_ranged l : forall g g', apply_fixup_list l g = COk g' -> Forall fixup_fits l -> ranged g -> ranged g'.
Proof.
  induction l as [|[a f] l IH]; intros g g' H F R; cbn [apply_fixup_list] in H.
  - apply COk_inj in H. subst. exact R.
  - inversion F as [|? ? Fa F']; subst. destruct (nth_error _ _) as [m|]; [|discriminate H].
    apply bind_ok in H as (i & E & H). apply (IH _ _ H F'). apply rg_patch; [exact R|]. eapply resolve_range; eassumption.
Qed.
Lemma fixups_ranged g g' : apply_fixups g = COk g' -> ranged g -> ranged g'.
Proof.
  intros H R. eapply fixup_list_ranged; [exact H|apply R|]. destruct R. split; try assumption. constructor.
Qed.

Lemma load_dims_ranged dims : forall i g g', load_dims dims i g = COk g' -> ranged g -> ranged g'.
Proof.
  induction dims as [|d dims IH]; intros i g g' H R; cbn [load_dims] in H.
  - apply COk_inj in H. subst. exact R.
  - destruct (N.ltb_spec (N.of_nat d) 65536); [|discriminate H]. destruct (register_local i) eqn:E; [|discriminate H].
    apply (IH _ _ _ H). apply rg_emit; [exact R|]. cbn [in_range]. split; fits.
Qed.
Lemma alloc_globals_ranged l : forall g g', alloc_globals l g = COk g' -> Forall (fun a => (fst a < 256)%N) l ->
  ranged g -> ranged g'.
Proof.
  induction l as [|[r [t dims]] l IH]; intros g g' H F R; cbn [alloc_globals] in H.
  - apply COk_inj in H. subst. exact R.
  - inversion F as [|? ? Fa F']; subst. cbn [fst] in Fa. apply bind_ok in H as (g1 & E & H).
    destruct (packed_new _ _) as [p|] eqn:P; [|discriminate H]. apply (IH _ _ H F').
    apply rg_emit; [eapply load_dims_ranged; eassumption|]. cbn [in_range]. split; [fits|split; [fits|lia]].
Qed.
Lemma register_globals_ranged defs : forall arrays s arrays' s', register_globals defs arrays s = COk (arrays', s') ->
  Forall (fun a => (fst a < 256)%N) arrays -> ranged (fst s) ->
  Forall (fun a => (fst a < 256)%N) arrays' /\ ranged (fst s').
Proof.
  induction defs as [|[n k] defs IH]; intros arrays s arrays' s' H F R; cbn [register_globals] in H.
  - apply COk_inj, pair_inj in H as [<- <-]. auto.
  - apply bind_ok in H as (u0 & _ & H).
    destruct (put_global _ _ _) as [[gs [r|]]|] eqn:P; try discriminate H.
    pose proof (put_global_fits _ _ _ _ _ P). destruct k as [t init|t dims].
    + apply bind_ok in H as (g & E & H). apply (IH _ _ _ _ H F). cbn [fst]. destruct init as [d|].
      * destruct (etype_eqb _ _); [|discriminate E]. eapply wp_ok; [exact E|]. apply emit_value_wp; auto.
      * apply COk_inj in E. subst g. rg.
    + apply (IH _ _ _ _ H); [|exact R]. apply Forall_app. auto.
Qed.
Lemma compiler_new_ranged up defs k : compiler_new up defs = COk k -> ranged (t_gen (k_ctx k)).
Proof.
  unfold compiler_new, prepare_globals. intros H. apply bind_ok in H as ([g gs] & H & K).
  apply COk_inj in K. subst k. apply bind_ok in H as ([arrays [g1 gs1]] & E & H). cbn beta iota in H.
  apply bind_ok in H as (g2 & A & H). apply COk_inj, pair_inj in H as [<- <-].
  destruct (register_globals_ranged _ _ _ _ _ E (Forall_nil _) rg_new) as [F R]. cbn [fst] in R.
  cbn [k_ctx t_gen set_gen]. rg. eapply alloc_globals_ranged; eassumption.
Qed.
