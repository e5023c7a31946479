(** The machine between statements, conditions and assignments. *)
From Verif Require Import Base Bytecode_Model Bytecode_Spec Bytecode_Proofs Mem_Model Mem_Spec Mem_Proofs Num_Model
  Vm_Model Vm_Spec Vm_Proofs Ids_Model Ids_Spec Ids_Proofs Ast_Model Syms_Model Syms_Proofs Codegen_Model
  Codegen_Proofs Exprs_Model Exprs_Proofs Top_Model Top_Proofs Layout_Proofs Args_Spec Eval_Spec Eval_Proofs Call_Spec
  Run_Proofs Call_Proofs Exec_Spec.
Local Open Scope list_scope.
Local Open Scope nat_scope.

Lemma convert_same cs h t raw d : stands_for cs h t raw d -> convert t d = Some (Ok d).
Proof. destruct d; cbn [stands_for]; intros [-> _]; reflexivity. Qed.

(** * Names in expressions *)

Definition in32 (e : expr) : Prop := within (fun _ _ => True) in_i32 e.

Lemma within_join (P Q R : bool -> varref -> Prop) (Zp Zq Zr : Z -> Prop) e :
  (forall b v, P b v -> Q b v -> R b v) -> (forall z, Zp z -> Zq z -> Zr z) ->
  within P Zp e -> within Q Zq e -> within R Zr e.
Proof.
  intros PQ ZZ. induction e as [b p|b p|z p|x p|w p|o l rr p IHl IHr|o e p IHe|w p args IH] using expr_rect';
    cbn [within]; auto.
  - intros [A B] [C D]. auto.
  - intros [A B] [C D]. split; [auto|]. clear A C. induction IH as [|[[[a|] sp] q] l H IH IHl]; [exact Logic.I| |exact (IHl B D)].
    destruct B as [X Y], D as [X' Y']. split; [exact (H X X')|exact (IHl Y Y')].
Qed.
Lemma references_within e k : references e k = false ->
  within (fun called v => called = false -> symkey (vr_name v) <> k) (fun _ => True) e.
Proof.
  induction e as [b p|b p|z p|x p|w p|o l rr p IHl IHr|o e p IHe|w p args IH] using expr_rect';
    cbn [within references]; auto.
  - intros E _ K. rewrite K, ustr_eqb_refl in E. discriminate E.
  - intros E. apply Bool.orb_false_iff in E as [A B]. auto.
  - intros E. split; [discriminate|]. induction IH as [|[[[a|] sp] q] l H IH IHl]; [exact Logic.I| |].
    + cbn [existsb] in E. apply Bool.orb_false_iff in E as [A B]. split; [exact (H A)|exact (IHl B)].
    + exact (IHl E).
Qed.
Lemma fine_none {W} L ls (s : env W) e : in32 e -> fine L ls None s e.
Proof.
  apply within_impl. intros called v _. split; [|intros md r _ _ E; discriminate E].
  destruct called; cbn [named]; intros; intros v' r' p' _ E; discriminate E.
Qed.

(** * Tables *)

Lemma key_other (t : symtab) k p i k' : k' <> k -> id_get ustr_eqb (t ++ [(k, (p, i))]) k' = id_get ustr_eqb t k'.
Proof.
  intros NE. induction t as [|[k0 e0] t IH]; cbn.
  - destruct (ustr_eqb k k') eqn:E; [|reflexivity]. apply ustr_eqb_eq in E. congruence.
  - destruct (ustr_eqb k0 k'); auto.
Qed.
Lemma lookup_other m m' v k p i : ls_locals m' = ls_locals m ++ [(k, (p, i))] -> ls_global m' = ls_global m ->
  symkey (vr_name v) <> k -> get_local_or_global m' v = get_local_or_global m v.
Proof.
  intros E F NE. unfold get_local_or_global, get_global, get_var. rewrite E, F, (key_other _ _ _ _ _ NE). reflexivity.
Qed.
Lemma undefined_key m v v' : undefined (get_local_or_global m v) -> symkey (vr_name v') = symkey (vr_name v) ->
  undefined (get_local_or_global m v').
Proof.
  unfold get_local_or_global, get_global, get_var. intros U E. rewrite E.
  destruct (id_get ustr_eqb (ls_locals m) (symkey (vr_name v))) as [[p1 i1]|].
  - destruct (accepts v _); [|contradiction U]. destruct (register_local i1); contradiction U.
  - destruct (id_get ustr_eqb (gs_vars _) (symkey (vr_name v))) as [[p1 i1]|]; [|exact Logic.I].
    destruct (accepts v _); [|contradiction U]. destruct (register_global i1); contradiction U.
Qed.
Lemma get_app_none (t : symtab) k e : id_get ustr_eqb t k = None -> id_get ustr_eqb (t ++ [(k, e)]) k = Some e.
Proof.
  induction t as [|[k0 e0] t IH]; cbn; intros G; [rewrite ustr_eqb_refl; reflexivity|].
  destruct (ustr_eqb k0 k); [discriminate G|auto].
Qed.
Lemma set_new (t : symtab) k p q i : id_get ustr_eqb t k = None ->
  id_set ustr_eqb (t ++ [(k, (p, i))]) k q = t ++ [(k, (q, i))].
Proof.
  intros N1. unfold id_set. rewrite (get_app_none _ _ _ N1). induction t as [|[k0 e0] t IH]; cbn in *.
  - rewrite ustr_eqb_refl. reflexivity.
  - destruct (ustr_eqb k0 k); [discriminate N1|]. rewrite IH by assumption. reflexivity.
Qed.
Lemma tables_ls_wf m : tables_ok m -> ls_wf m.
Proof. intros [H _]. exact H. Qed.
Lemma local_index c n : reg_index c (64 + n) = c_fp c + N.to_nat n.
Proof. unfold reg_index, register_to_parts, max_global. destruct (N.ltb_spec (64 + n) 64); [lia|]. cbn [fst snd]. replace (64 + n - 64)%N with n by lia. apply Nat.add_comm. Qed.
Lemma temp_scope_open x sc r sc' st pos : open_scope (snd x) (freeze x) = COk sc -> alloc sc pos (freeze x) = COk (r, sc', st) ->
  fst st = s_gen x /\ r = (64 + N.of_nat (id_len (ls_locals (snd x))) + ls_active_temps (snd x))%N /\
  ts_next (snd st) = (ls_active_temps (snd x) + 1)%N /\ (r < 256)%N.
Proof.
  intros A B. apply open_ok in A as (_ & _ & E). apply alloc_ok in B as (F & _ & _ & _ & N1 & R & LT).
  cbn [freeze fst snd frozen ts_next] in *. rewrite E in R. auto.
Qed.

Lemma contains_get g k : contains_global g k = false <-> id_get ustr_eqb (gs_vars g) k = None.
Proof. unfold contains_global. destruct (id_get ustr_eqb (gs_vars g) k); split; congruence. Qed.

(** * Code *)

(** The code of [x] stays, except for placeholders. *)
Definition args_kept (x y : sst) : Prop := forall a md, a < s_pc x -> nth_error (g_instrs (s_gen x)) a = Some md ->
  exists md', nth_error (g_instrs (s_gen y)) a = Some md' /\ m_args md' = m_args md.
Lemma args_kept_eq x y : g_instrs (s_gen y) = g_instrs (s_gen x) -> args_kept x y.
Proof. intros E a md _ H. exists md. rewrite E. auto. Qed.
Record later (x y : sst) : Prop := mkLater {
  la_code : forall p i, code_at x p = Some i -> i <> INop -> code_at y p = Some i;
  la_syms : ext (snd x) (snd y);
  la_const : forall ord, wf (g_constants (s_gen x)) ord -> exists new, wf (g_constants (s_gen y)) (ord ++ new);
  la_ups : forall ord, wf (g_upcalls (s_gen x)) ord -> exists new, wf (g_upcalls (s_gen y)) (ord ++ new);
  la_fix : forall f, In f (g_fixups (s_gen x)) -> In f (g_fixups (s_gen y));
  la_labels : forall l a, assoc (g_labels (s_gen x)) l = Some a -> assoc (g_labels (s_gen y)) l = Some a;
  la_args : args_kept x y;
  la_pc : s_pc x <= s_pc y
}.
Lemma later_refl x : later x x.
Proof. constructor; auto using ext_refl, args_kept_eq; intros ord H; exists []; rewrite app_nil_r; exact H. Qed.
Lemma later_trans x y z : later x y -> later y z -> later x z.
Proof.
  intros [A1 A2 A3 A5 A6 A7 A8 A4] [B1 B2 B3 B5 B6 B7 B8 B4]. constructor; eauto using ext_trans; [| | |lia].
  - intros ord H. destruct (A3 _ H) as [n H1]. destruct (B3 _ H1) as [k H2]. exists (n ++ k). rewrite app_assoc. exact H2.
  - intros ord H. destruct (A5 _ H) as [n H1]. destruct (B5 _ H1) as [k H2]. exists (n ++ k). rewrite app_assoc. exact H2.
  - intros a md LT H. destruct (A8 _ _ LT H) as (md1 & H1 & E1). destruct (B8 a md1 ltac:(lia) H1) as (md2 & H2 & E2).
    exists md2. split; [exact H2|congruence].
Qed.
Lemma later_same x y : (forall p i, code_at x p = Some i -> i <> INop -> code_at y p = Some i) -> ext (snd x) (snd y) ->
  g_constants (s_gen y) = g_constants (s_gen x) -> g_upcalls (s_gen y) = g_upcalls (s_gen x) ->
  (forall f, In f (g_fixups (s_gen x)) -> In f (g_fixups (s_gen y))) -> g_labels (s_gen y) = g_labels (s_gen x) ->
  s_pc x <= s_pc y -> args_kept x y -> later x y.
Proof.
  intros A B C D E G F K. constructor; auto; [| |intros l a; rewrite G; auto]; intros ord H; exists []; rewrite app_nil_r; [rewrite C|rewrite D]; exact H.
Qed.
Lemma later_emit i p x : later x (s_emit i p x).
Proof.
  apply later_same; [|apply ext_refl|reflexivity|reflexivity|auto|reflexivity|rewrite s_emit_pc; lia|].
  - intros q j C _. rewrite code_emit_lt; [exact C|]. eapply code_lt, C.
  - intros a md _ H. exists md. split; [|reflexivity]. change (nth_error (g_instrs (s_gen x) ++ [mkMeta p false []]) a = Some md).
    rewrite nth_error_app1; [exact H|]. apply nth_error_Some. congruence.
Qed.
Lemma later_patch a i x : code_at x a = Some INop -> later x (s_patch a i x).
Proof.
  intros P. apply later_same; [|apply ext_refl|reflexivity|reflexivity|auto|reflexivity|rewrite s_patch_pc; lia|apply args_kept_eq; reflexivity].
  intros q j C N1. rewrite code_patch_other; [exact C|]. intros ->. congruence.
Qed.
Lemma later_grows x y : sgrows (s_pc x) x y -> later x y.
Proof.
  intros G. constructor.
  - intros p i C _. rewrite (code_grows _ _ _ _ G); [exact C|]. eapply code_lt, C.
  - apply ext_grows, G.
  - apply (gr_const _ _ _ (sg_gen _ _ _ G)).
  - apply (gr_up _ _ _ (sg_gen _ _ _ G)).
  - intros f F. destruct (gr_fix _ _ _ (sg_gen _ _ _ G)) as (new & E & _). rewrite E. apply in_or_app. auto.
  - apply (gr_labels _ _ _ (sg_gen _ _ _ G)).
  - intros a md LT H. exists md. rewrite (gr_meta _ _ _ (sg_gen _ _ _ G)) by exact LT. auto.
  - eapply sgrows_pc, G.
Qed.

Section Sim.
Variable powf : N -> N -> N.
Variable img : image.
Context {W : Type}.
Variable upcall : N -> N -> nat -> image -> ctx -> heap -> W -> option (upcall_result W).
Variable L : lsyms.
Variable hidden : N -> option hdatum.
Variable calls : ustr -> list given -> env W -> res vm_error (option cdatum) -> env W -> Prop.
Variable ups : list ustr.
Variable entry : point -> N -> Prop.
Hypothesis L_ok : tables_ok L.
Hypothesis L_ns : no_shadowing L.
Hypothesis L_ap : names_apart L.
Hypothesis functions_ok : functions_obey powf img upcall L hidden calls ups entry.
Hypothesis calls_local : forall k gs s r s' k', calls k gs s r s' -> is_shared L k' = false -> (r = Ok None -> forall t, ~ In (GRef k' t) gs) -> vals s k' = None -> vals s' k' = None.
Notation cs := (i_constants img).
Notation ty := (declared L).
Notation callable := (get_callable (ls_global L)).
Notation state ls := (holding L hidden cs ls None).
Notation holding := (holding L hidden cs).
Notation evals := (evals powf callable (is_variable L) calls).
Notation evals_as := (evals_as powf callable (is_variable L) calls).
Notation tests := (tests powf callable (is_variable L) calls).
Notation iterate := (iterate (is_shared L)).
Notation go := (go powf img upcall).
Notation stuck := (stuck powf img upcall).
Notation gfails := (gfails powf img upcall).
Notation greach := (greach powf img upcall).
Notation gsettles := (gsettles powf img upcall L hidden).
Notation loaded := (loaded img ups entry).
Notation knowing := (knowing L).
Implicit Types (m : mem W) (s : env W).

(** ** The tables on the way *)

Lemma knowing_tables a : (exists ord, wf (ls_locals a) ord) ->
  (exists n, gs_vars (ls_global L) = gs_vars (ls_global a) ++ n) ->
  gs_upcalls (ls_global L) = gs_upcalls (ls_global a) ->
  (forall k md, assoc (gs_user (ls_global a)) k = Some md -> assoc (gs_user (ls_global L)) k = Some md) ->
  (forall k e, id_get ustr_eqb (ls_locals a) k = Some e -> exists e', id_get ustr_eqb (ls_locals L) k = Some e') ->
  (forall k t n i, id_get ustr_eqb (ls_locals a) k = Some (PArray t n, i) -> exists i', id_get ustr_eqb (ls_locals L) k = Some (PArray t n, i')) ->
  knowing a.
Proof.
  intros WF [n GV] GU US LK AR.
  assert (NS : no_shadowing (by_now L a)).
  { intros k. cbn [by_now ls_locals ls_global]. destruct (id_get ustr_eqb (ls_locals a) k) as [e|] eqn:E; [|left; reflexivity].
    right. destruct (LK _ _ E) as [e' E']. destruct (L_ns k) as [X|X]; [congruence|exact X]. }
  assert (EX : ext a (by_now L a)).
  { split; [exists []; symmetry; apply app_nil_r|]. split; [exists n; exact GV|]. split; [exact GU|exact US]. }
  assert (FUN : forall k md, get_callable (ls_global a) k = Some md -> callable k = Some md).
  { intros k md. unfold get_callable. destruct (assoc (gs_user (ls_global a)) k) as [md'|] eqn:E.
    - intros H. injection H as <-. rewrite (US _ _ E). reflexivity.
    - intros H. rewrite <- GU in H. destruct (assoc (gs_user (ls_global L)) k) as [md'|] eqn:E'; [|exact H].
      destruct (ap_user _ L_ap _ _ E') as [_ X]. congruence. }
  constructor.
  - split; [exact WF|apply L_ok].
  - exact NS.
  - intros v U. apply lookup_ext; assumption.
  - exact FUN.
  - intros k md H U. unfold get_callable in H. destruct (assoc (gs_user (ls_global a)) k) as [md'|] eqn:E.
    + injection H as ->. apply US in E. apply (ap_user _ L_ap) in E as [X _]. congruence.
    + congruence.
  - intros v r t k G. destruct (callable (symkey (vr_name v))) as [md|] eqn:E; [exfalso|reflexivity].
    destruct (lookup_cases _ _ _ _ G) as [(i & X & _)|(_ & i & X & _)].
    + apply AR in X as [i' X]. exact (ap_array _ L_ap _ _ _ _ _ E X).
    + pose proof (ap_shared _ L_ap _ _ E) as Y. rewrite GV, (get_ext _ _ _ _ X) in Y. discriminate Y.
  - intros v md E U. unfold get_local_or_global, get_global, get_var in *. cbn [by_now ls_locals ls_global].
    destruct (id_get ustr_eqb (ls_locals a) (symkey (vr_name v))) as [[p1 i1]|].
    + destruct (accepts v _); [destruct (register_local i1)|]; exact U.
    + rewrite (ap_shared _ L_ap _ _ E). exact Logic.I.
  - intros v r p G. unfold is_variable. destruct (lookup_cases _ _ _ _ G) as [(i & X & _)|(_ & i & X & _)].
    + apply LK in X as [e' ->]. reflexivity.
    + destruct (id_get ustr_eqb (ls_locals L) (symkey (vr_name v))); [reflexivity|]. unfold is_shared, contains_global.
      rewrite GV, (get_ext _ _ _ _ X). reflexivity.
Qed.
Lemma knowing_ext a : ext a L -> knowing a.
Proof.
  intros X. pose proof (tables_prefix _ _ X L_ok) as T. destruct X as ([n LE] & GE & UE & US).
  apply knowing_tables; auto; [apply T| |]; intros; rewrite LE.
  - eexists. eapply get_ext. eassumption.
  - eexists. eapply get_ext. eassumption.
Qed.

(** The same machine with other tables, or with fewer variables. *)
Lemma holding_tables a b skip c m s s' : holding a skip c m s -> world s' = world s ->
  (forall v x, vals s' (symkey (vr_name v)) = Some x -> vals s (symkey (vr_name v)) = Some x /\
     get_local_or_global (by_now L b) v = get_local_or_global (by_now L a) v) ->
  holding b skip c m s'.
Proof.
  intros [A1 A2 A3 A4 A5 A6 A7 A8 A9 A10] WE H.
  assert (SE : forall v r p x, seen L b skip s' v r p x -> seen L a skip s v r p x).
  { intros v r p x (S1 & S2 & S3). destruct (H _ _ S1) as [V E]. split; [exact V|]. split; [rewrite <- E; exact S2|exact S3]. }
  constructor; auto; try congruence.
  - intros v x V. destruct (H _ _ V) as [V' E]. rewrite E. eapply A6, V'.
  - intros v r p x S1. apply A7 with (v := v). apply SE, S1.
  - intros v r p t dims at_ v' r' p' t' dims' at_' S1 S2. eapply A8; apply SE; eassumption.
  - intros v r p t dims at_ i S1. eapply A10, SE, S1.
Qed.
Lemma known_defined ls skip c m s v x : holding ls skip c m s -> vals s (symkey (vr_name v)) = Some x ->
  ~ undefined (get_local_or_global (by_now L ls) v).
Proof.
  intros H V U. pose proof (hd_known _ _ _ _ _ _ _ _ H v x V) as Q.
  destruct (get_local_or_global (by_now L ls) v) as [[r p]|[z|z|z|z w]]; auto.
Qed.
Lemma ext_by_now a b : ext a b -> ext (by_now L a) (by_now L b).
Proof. intros (X & _). split; [exact X|]. split; [exists []; symmetry; apply app_nil_r|]. split; [reflexivity|auto]. Qed.
Lemma ns_by_now a : ext a L -> no_shadowing (by_now L a).
Proof.
  intros ([n E] & _) k. cbn [by_now ls_locals ls_global]. destruct (L_ns k) as [X|X]; [left|right; exact X].
  destruct (id_get ustr_eqb (ls_locals a) k) as [e|] eqn:Q; [|reflexivity]. rewrite E, (get_ext _ _ _ _ Q) in X. discriminate X.
Qed.
Lemma state_ext a b c m s : ext a b -> ext b L -> state a c m s -> state b c m s.
Proof.
  intros X Y H. eapply holding_tables; [exact H|reflexivity|]. intros v x V. split; [exact V|].
  apply lookup_ext; [apply ext_by_now, X|apply ns_by_now, Y|]. eapply known_defined; eassumption.
Qed.
Lemma state_pc ls c m s pc : state ls c m s -> state ls (set_pc c pc) m s.
Proof.
  intros H. eapply holding_same; [exact H|apply H|repeat split|reflexivity|apply heap_kept_refl, H|reflexivity].
Qed.
Lemma state_back a b c m s s0 c0 m0 : ext a b -> ext b L -> state b c m s -> state a c0 m0 s0 ->
  state a c m (iterate s0 s).
Proof.
  intros X Y H H0. eapply holding_tables; [exact H|reflexivity|]. intros v x. cbn [vals Exec_Spec.iterate].
  destruct (is_shared L (symkey (vr_name v))) eqn:SH.
  - intros V. split; [exact V|]. symmetry. apply lookup_ext; [apply ext_by_now, X|apply ns_by_now, Y|].
    unfold get_local_or_global, get_global, get_var. cbn [by_now ls_locals ls_global]. unfold is_shared, contains_global in SH.
    destruct (id_get ustr_eqb (ls_locals a) (symkey (vr_name v))) as [[p1 i1]|].
    + destruct (accepts v _); [destruct (register_local i1)|]; intros U; exact U.
    + destruct (id_get ustr_eqb (gs_vars (ls_global L)) (symkey (vr_name v))) as [[p1 i1]|]; [|discriminate SH].
      destruct (accepts v _); [destruct (register_global i1)|]; intros U; exact U.
  - destruct (vals s0 (symkey (vr_name v))) as [x0|] eqn:V0; [|discriminate]. intros V. split; [exact V|].
    symmetry. apply lookup_ext; [apply ext_by_now, X|apply ns_by_now, Y|]. eapply known_defined; eassumption.
Qed.

(** Whether the compiler has a place for [k] by now. *)
Definition placed (a : lsyms) (k : ustr) : Prop := is_shared L k = true \/ id_get ustr_eqb (ls_locals a) k <> None.
Lemma placed_defined a v : placed a (symkey (vr_name v)) -> ~ undefined (get_local_or_global (by_now L a) v).
Proof.
  unfold placed, get_local_or_global, get_global, get_var. cbn [by_now ls_locals ls_global].
  unfold is_shared, contains_global. intros P.
  destruct (id_get ustr_eqb (ls_locals a) (symkey (vr_name v))) as [[p1 i1]|].
  - destruct (accepts v _); [destruct (register_local i1)|]; intros U; exact U.
  - destruct (id_get ustr_eqb (gs_vars (ls_global L)) (symkey (vr_name v))) as [[p1 i1]|]; [|destruct P as [P|P]; [discriminate P|contradiction P; reflexivity]].
    destruct (accepts v _); [destruct (register_global i1)|]; intros U; exact U.
Qed.
Lemma state_placed a c m s v x : state a c m s -> vals s (symkey (vr_name v)) = Some x -> placed a (symkey (vr_name v)).
Proof.
  intros H V. pose proof (known_defined _ _ _ _ _ _ _ H V) as D. unfold placed, is_shared, contains_global.
  unfold get_local_or_global, get_global, get_var in D. cbn [by_now ls_locals ls_global] in D.
  destruct (id_get ustr_eqb (ls_locals a) (symkey (vr_name v))) as [[p1 i1]|]; [right; discriminate|].
  destruct (id_get ustr_eqb (gs_vars (ls_global L)) (symkey (vr_name v))) as [[p1 i1]|]; [left; reflexivity|]. contradiction D. exact Logic.I.
Qed.
Lemma placed_ext a b k : ext a b -> placed a k -> placed b k.
Proof.
  intros ([n E] & _) [P|P]; [left; exact P|right]. destruct (id_get ustr_eqb (ls_locals a) k) as [e|] eqn:Q; [|congruence].
  rewrite E, (get_ext _ _ _ _ Q). discriminate.
Qed.
Lemma state_forget a b c m s s2 : ext a b -> ext b L -> state b c m s -> world s2 = world s ->
  (forall v x, vals s2 (symkey (vr_name v)) = Some x -> vals s (symkey (vr_name v)) = Some x /\ placed a (symkey (vr_name v))) ->
  state a c m s2.
Proof.
  intros X Y H WE K. eapply holding_tables; [exact H|exact WE|]. intros v x V. destruct (K v x V) as [V1 P]. split; [exact V1|].
  symmetry. apply lookup_ext; [apply ext_by_now, X|apply ns_by_now, Y|]. apply placed_defined, P.
Qed.

Lemma holding_skip ls c m s r : holding ls None c m s -> holding ls (Some r) c m s.
Proof.
  intros [A1 A2 A3 A4 A5 A6 A7 A8 A9 A10].
  assert (SE : forall v r0 p x, seen L ls (Some r) s v r0 p x -> seen L ls None s v r0 p x).
  { intros v r0 p x (S1 & S2 & S3). split; [exact S1|]. split; [exact S2|]. discriminate. }
  constructor; auto.
  - intros v r0 p x S1. apply A7 with (v := v), SE, S1.
  - intros v r0 p t dims at_ v' r' p' t' dims' at_' S1 S2. eapply A8; apply SE; eassumption.
  - intros v r0 p t dims at_ i S1. eapply A10, SE, S1.
Qed.

(** A variable gets a value. *)
Lemma holding_put ls c m s v r t d : tables_ok (by_now L ls) -> holding ls (Some r) c m s ->
  get_local_or_global (by_now L ls) v = Ok (r, PScalar t) -> stands_for cs m t (get_reg c r) d ->
  state ls c m (store s (ascii_upper (vr_name v)) (Scalar d)).
Proof.
  intros TB [A1 A2 A3 A4 A5 A6 A7 A8 A9 A10] G ST.
  assert (SE : forall v' r' p' x', seen L ls None (store s (ascii_upper (vr_name v)) (Scalar d)) v' r' p' x' ->
    (x' = Scalar d /\ r' = r /\ p' = PScalar t) \/ seen L ls (Some r) s v' r' p' x').
  { intros v' r' p' x' (S1 & S2 & _). cbn [store vals] in S1.
    destruct (ustr_eqb (ascii_upper (vr_name v)) (ascii_upper (vr_name v'))) eqn:Q.
    - left. injection S1 as <-. apply ustr_eqb_eq in Q.
      destruct (lookup_same _ _ _ _ _ Q G) as [K|(e & K & _)]; rewrite K in S2; [|discriminate S2].
      apply Ok_pair in S2 as [<- <-]. auto.
    - right. split; [exact S1|]. split; [exact S2|]. intros E. injection E as <-.
      rewrite (lookup_inj _ _ _ _ _ _ TB G S2), ustr_eqb_refl in Q. discriminate Q. }
  constructor; auto.
  - intros v' x V. cbn [store vals] in V.
    destruct (ustr_eqb (ascii_upper (vr_name v)) (ascii_upper (vr_name v'))) eqn:Q; [|eapply A6, V].
    apply ustr_eqb_eq in Q. destruct (lookup_same _ _ _ _ _ Q G) as [K|(e & K & NU)]; rewrite K; [exact Logic.I|].
    destruct e; try exact Logic.I. destruct NU. exact Logic.I.
  - intros v' r' p' x' S1. destruct (SE _ _ _ _ S1) as [(-> & -> & ->)|S2]; [exact ST|]. eapply A7, S2.
  - intros v' r' p' t' dims at_ v2 r2 p2 t2 dims2 at2 S1 S2.
    destruct (SE _ _ _ _ S1) as [(E & _)|S1']; [discriminate E|]. destruct (SE _ _ _ _ S2) as [(E & _)|S2']; [discriminate E|].
    eapply A8; eassumption.
  - intros v' r' p' t' dims at_ i S1. destruct (SE _ _ _ _ S1) as [(E & _)|S2]; [discriminate E|]. eapply A10, S2.
Qed.

(** ** Code *)

(** The code between [x] and [x'] is in the image. *)
Record has (x x' : sst) : Prop := mkHas {
  has_load : loaded (s_gen x') (s_pc x);
  has_syms : ext (snd x') L
}.
Lemma has_inner x x' a b : has x x' -> later b x' -> s_pc x <= s_pc a -> has a b.
Proof.
  intros [[H1 H2 H4 H5 H6 H7 H8] H3] [A1 A2 A3 A5 A6 A7 A8 A4] LE. constructor; [constructor|].
  - intros p i R C N1. apply H1; [unfold s_pc in *; clear -R LE A4; lia|apply A1; assumption|assumption].
  - intros ord Wf. destruct (A3 _ Wf) as [n W1]. destruct (H2 _ W1) as [r E]. exists (n ++ r). rewrite E. apply app_assoc_reverse.
  - intros ord Wf. destruct (A5 _ Wf) as [n W1]. destruct (H4 _ W1) as [r E]. exists (n ++ r). rewrite E. apply app_assoc_reverse.
  - intros p reg k X I1. apply H5; [clear -X LE; lia|apply A6, I1].
  - intros p l. destruct (H6 p l) as [Ha Hb]. split; intros I1; [apply Ha|apply Hb]; apply A6, I1.
  - intros l p t X. apply H7. apply A7, X.
  - intros p md R X. destruct (A8 p md) as (md' & Y & E); [apply R|exact X|]. rewrite <- E. apply H8; [|exact Y].
    unfold s_pc in *. clear -R LE A4. lia.
  - eapply ext_trans; eassumption.
Qed.
Lemma has_at x x' p i : has x x' -> code_at x' p = Some i -> i <> INop -> s_pc x <= p -> fetched img p i.
Proof. intros [[H _ _ _ _ _ _] _] C N1 LE. apply H; [split; [exact LE|eapply code_lt, C]|exact C|exact N1]. Qed.

(** One instruction that goes elsewhere. *)
Lemma go_step c m c1 c' : heap_ok m -> step powf img c m = RNext c1 m -> set_yield c1 false = c' -> same_frame c c' ->
  c_regs c' = c_regs c -> go c m c' m.
Proof.
  intros O S0 <- SF RG. split; [|split; [exact SF|split; [apply texts_refl, O|]]].
  - eapply gsteps_one. exact S0.
  - intros i _. unfold slot. rewrite RG. reflexivity.
Qed.
Lemma go_jump c m t : c_yield c = false -> heap_ok m -> fetched img (c_pc c) (IJump t) -> go c m (set_pc c (N.to_nat t)) m.
Proof.
  intros Y O F. eapply go_step; [exact O|rewrite (step_at _ _ _ _ _ Y F); reflexivity| |repeat split|reflexivity].
  unfold jump_to. destruct c; cbn in *. subst. destruct (_ <=? _); reflexivity.
Qed.
Lemma go_branch c m r t : c_yield c = false -> heap_ok m -> fetched img (c_pc c) (IJumpIfFalse r t) ->
  go c m (set_pc c (if (get_reg c r =? 0)%N then N.to_nat t else S (c_pc c))) m.
Proof.
  intros Y O F. eapply go_step with (c1 := if (get_reg c r =? 0)%N then jump_to c (N.to_nat t) else Vm_Model.next_pc c);
    [exact O| | |repeat split|reflexivity].
  - rewrite (step_at _ _ _ _ _ Y F). cbn [dispatch]. destruct (get_reg c r =? 0)%N; reflexivity.
  - destruct (get_reg c r =? 0)%N.
    + unfold jump_to. destruct c; cbn in *. subst. destruct (_ <=? _); reflexivity.
    + destruct c; cbn in *. subst. reflexivity.
Qed.
Lemma go_branch_bool c m r t (b : bool) : c_yield c = false -> heap_ok m -> fetched img (c_pc c) (IJumpIfFalse r t) ->
  get_reg c r = b2n b -> go c m (set_pc c (if b then S (c_pc c) else N.to_nat t)) m.
Proof.
  intros Y O F E. pose proof (go_branch c m r t Y O F) as G. rewrite E in G. destruct b; exact G.
Qed.

(** ** Expressions in temporaries *)
Definition comes (x' : sst) (c : ctx) m (r : res vm_error cdatum) (reg : N) (t : etype) s' : Prop :=
  stuck c m \/
  match r with
  | Ok d => exists c' m', go c m c' m' /\ c_pc c' = s_pc x' /\ state (snd x') c' m' s' /\ stands_for cs m' t (get_reg c' reg) d
  | Err er => gfails c m er (world s')
  end.

Lemma temp_sim ot e epos x sc pos r sc' st1 st2 t c m s q s' : ext (snd x) L ->
  open_scope (snd x) (freeze x) = COk sc -> alloc sc pos (freeze x) = COk (r, sc', st1) ->
  compile_as (snd x) ot e epos r st1 = COk (st2, t) -> gwf (s_gen x) -> loaded (fst st2) (s_pc x) -> in32 e ->
  state (snd x) c m s -> c_pc c = s_pc x -> evals_as s ot e q s' ->
  gsettles (snd x) None (next_pc (fst st2)) (top_slot (snd x) c (snd st1)) r t c m q s'.
Proof.
  intros XL E E0 E1 WF LD LO ST PC EV. destruct (temp_scope_open _ _ _ _ _ _ E E0) as (F1 & F2 & F3 & F4).
  pose proof (knowing_ext _ XL) as K.
  assert (RI : S (reg_index c r) = top_slot (snd x) c (snd st1)).
  { rewrite F2, <- N.add_assoc, local_index. unfold top_slot. rewrite F3. lia. }
  eapply (as_works powf img upcall L hidden calls ups entry (snd x) None K ot e epos r st1 st2); try eassumption.
  - apply expr_works; assumption.
  - rewrite F1. exact WF.
  - rewrite F1. exact LD.
  - apply fine_none, LO.
  - rewrite F1. exact PC.
  - apply spare_all. lia.
  - right. rewrite F2. lia.
  - intros v p md _ _ _. rewrite RI. apply le_n.
Qed.

Lemma guard_sim e x r y c m s q s' : guard_expr e x = COk (r, y) -> ok x -> has x y -> in32 e ->
  state (snd x) c m s -> c_pc c = s_pc x -> tests s e q s' ->
  stuck c m \/
  match q with
  | Ok b => exists c' m', go c m c' m' /\ c_pc c' = s_pc y /\ state (snd y) c' m' s' /\ get_reg c' r = b2n b
  | Err er => gfails c m er (world s')
  end.
Proof.
  intros H O HS LO ST PC T. unfold guard_expr in H.
  apply bind_ok in H as (sc & E & H). apply bind_ok in H as ([[r1 sc'] st1] & E0 & H).
  apply bind_ok in H as (st2 & E1 & H). apply COk_inj in H. apply pair_inj in H as [<- H].
  assert (XY : ext (snd x) (snd y)) by (subst y; apply ext_thaw).
  assert (S2 : s_gen y = fst st2) by (subst y; reflexivity).
  assert (E2 : compile_as (snd x) (Some TBoolean) e (start_pos e) r1 st1 = COk (st2, TBoolean)).
  { unfold compile_as. unfold compile_expr_as_type in E1. rewrite E1. reflexivity. }
  assert (LD : loaded (fst st2) (s_pc x)) by (rewrite <- S2; apply HS).
  assert (EV : exists v, evals_as s (Some TBoolean) e v s' /\ match q with Ok b => v = Ok (CBool b) | Err er => v = Err er end).
  { inversion T as [b s1 X|er s1 X]; subst; eexists; (split; [exact X|reflexivity]). }
  destruct EV as (v & EV & Q).
  pose proof (temp_sim _ _ _ _ _ _ _ _ _ _ _ c m s v s' (ext_trans _ _ _ XY (has_syms _ _ HS)) E E0 E2 (proj1 (ok_wf _ O)) LD LO ST PC EV) as B.
  destruct B as [B|B]; [left; exact B|right]. destruct q as [b|er]; subst v; [|exact B].
  destruct B as (c' & m' & R & P & Q & H1). exists c', m'. pose proof (hd_fp _ _ _ _ _ _ _ _ ST) as FP.
  split; [eapply go_reach; [exact R|unfold top_slot; lia|exact FP]|]. split; [rewrite P, <- S2; reflexivity|].
  split; [eapply state_ext; [exact XY|apply HS|exact H1]|apply Q].
Qed.

(** ** Assignments *)

Lemma declared_new a v t i : ext a L -> id_get ustr_eqb (ls_locals a) (symkey (vr_name v)) = Some (PScalar t, i) ->
  ty (ascii_upper (vr_name v)) = Some t.
Proof.
  intros [[n E] _] G. unfold declared. change ascii_upper with symkey. rewrite E, (get_ext _ _ _ _ G). reflexivity.
Qed.
Lemma new_index a i r c (t : tstate) (m' : lsyms) e : i = N.of_nat (id_len (ls_locals a)) -> register_local i = Some r ->
  ls_locals m' = ls_locals a ++ [e] -> reg_index c r < top_slot m' c t.
Proof.
  intros -> R E. unfold register_local, max_global in R. destruct (_ <=? _)%N; [|discriminate R]. injection R as <-.
  rewrite N.add_comm, local_index. unfold top_slot. rewrite E. unfold id_len. rewrite app_length. cbn [length]. clear. lia.
Qed.
Lemma register_local_range i r : register_local i = Some r -> (64 <= r < 256)%N.
Proof.
  unfold register_local, max_global, max_register. destruct (N.leb_spec (i + 64) 255) as [LE|]; [|discriminate]. intros H. injection H as <-. clear -LE. lia.
Qed.

Definition assigned (x' : sst) (c : ctx) m (k : ustr) (r : res vm_error cdatum) s' : Prop :=
  match r with
  | Ok d => exists c' m', go c m c' m' /\ c_pc c' = s_pc x' /\ state (snd x') c' m' (store s' k (Scalar d))
  | Err er => gfails c m er (world s')
  end.

Lemma apart_topmost c r lim v e : computed_apart L v e -> topmost L c r lim e.
Proof. intros [A _] w p md E C U. exfalso. apply (A w p E). exists md. auto. Qed.

Lemma fine_direct ls s v r t e : knowing ls -> get_local_or_global ls v = Ok (r, PScalar t) ->
  references e (symkey (vr_name v)) = false -> computed_apart L v e -> in32 e -> fine L ls (Some r) s e.
Proof.
  intros K G RF [_ CA] LO. assert (G' : get_local_or_global (by_now L ls) v = Ok (r, PScalar t)).
  { rewrite <- G. apply (kn_lookup _ _ K). rewrite G. intros U; exact U. }
  assert (OF : within (fun _ w => own_frame L (Some r) w) (fun _ => True) e).
  { destruct CA as [CA|[CA|CA]].
    - assert (R64 : (64 <= r)%N).
      { destruct (lookup_cases _ _ _ _ G') as [(i & _ & ->)|(_ & i & X & _)]; [clear; lia|].
        cbn [by_now ls_global] in X. unfold is_shared in CA. apply contains_get in CA. change ascii_upper with symkey in CA. congruence. }
      eapply (within_join (fun _ _ => True) (fun _ _ => True)); [| |exact LO|exact LO]; [|auto].
      intros b w _ _ md q _ _ E. injection E as <-. exact R64.
    - destruct CA. exact (references_within _ _ RF).
    - eapply within_impl; [|exact CA]. intros b w NU md q C U _. destruct NU. exists md. auto. }
  eapply (within_join (fun called w => called = false -> symkey (vr_name w) <> symkey (vr_name v)) (fun _ w => own_frame L (Some r) w));
    [| |exact (references_within _ _ RF)|]; [| |eapply within_join; [| |exact LO|exact OF]; [intros b w _ X; exact X|intros z X _; exact X]].
  2: intros z _ X; exact X.
  intros called w NE OW. split; [|exact OW]. destruct called; cbn [named].
  - intros r1 t1 n1 G1 v' r' p' SK E G2. injection E as <-.
    assert (KK : symkey (vr_name v') = symkey (vr_name v)) by (eapply lookup_inj; [apply (kn_ok _ _ K)|exact G2|exact G']).
    assert (G3 : get_local_or_global (by_now L ls) w = Ok (r1, PArray t1 n1)).
    { rewrite <- G1. apply (kn_lookup _ _ K). rewrite G1. intros U; exact U. }
    exfalso. assert (KW : symkey (vr_name v) = symkey (vr_name w)) by congruence.
    destruct (lookup_same _ _ _ _ _ KW G') as [X|(x & X & _)]; rewrite G3 in X; discriminate X.
  - intros v' r' p' SK E G2. injection E as <-. exfalso. apply (NE eq_refl).
    rewrite <- SK. eapply lookup_inj; [apply (kn_ok _ _ K)|exact G2|exact G'].
Qed.

Lemma assign_sim v p e x x' c m s t r s' : s_assignment v p e x = COk x' -> ok x -> has x x' -> in32 e -> computed_apart L v e ->
  state (snd x) c m s -> c_pc c = s_pc x -> ty (ascii_upper (vr_name v)) = Some t -> evals_as s (Some t) e r s' ->
  stuck c m \/ assigned x' c m (ascii_upper (vr_name v)) r s'.
Proof.
  intros H O HS LO CA ST PC TY EV. pose proof (proj1 (assignment_frame _ _ _ _ _ H (ok_wf _ O))) as SG.
  assert (XX : ext (snd x) (snd x')) by (apply ext_grows, SG).
  assert (XL : ext (snd x) L) by (eapply ext_trans; [exact XX|apply HS]).
  pose proof (knowing_ext _ XL) as K. pose proof (hd_fp _ _ _ _ _ _ _ _ ST) as FP.
  assert (WF : gwf (s_gen x)) by apply O.
  unfold s_assignment, compile_assignment in H. cbn [fst snd] in H.
  apply bind_ok in H as ([g1 l1] & H & KE). apply COk_inj in KE.
  apply bind_ok in H as ([[[l0 reg] ot] was] & H0 & H).
  destruct (get_local_or_global (snd x) v) as [[r0 [t0 n0|t0]]|[z|z|z|z wsc]] eqn:G; try discriminate H0.
  - (* it exists *)
    apply COk_inj in H0. injection H0 as <- <- <- <-. cbn [andb] in H.
    pose proof (declared_lookup _ _ _ _ _ XL L_ns G) as D. rewrite TY in D. injection D as <-.
    assert (G' : get_local_or_global (by_now L (snd x)) v = Ok (r0, PScalar t)).
    { rewrite <- G. apply (kn_lookup _ _ K). rewrite G. intros U; exact U. }
    assert (RB : (r0 < 256)%N) by (pose proof (lookup_range _ _ _ _ (by_now_wf _ _ K) G) as X; clear -X; lia).
    unfold map_error in H. destruct (references e (symkey (vr_name v))) eqn:RF.
    + (* through a temporary *)
      destruct (bind (open_scope (snd x) (s_gen x, frozen (snd x))) _) as [[g2 l2]| |] eqn:B in H; try discriminate H.
      apply COk_inj in H. apply pair_inj in H as [<- <-].
      apply bind_ok in B as (sc & E & B). apply bind_ok in B as ([[tmp sc'] st1] & E0 & B).
      apply bind_ok in B as (st2 & E1 & B). apply COk_inj in B. apply pair_inj in B as [B1 B2].
      destruct (temp_scope_open _ _ _ _ _ _ E E0) as (F1 & F2 & F3 & F4).
      cbn [close e_emit fst snd] in B1.
      assert (SX : s_gen x' = emit (IMove r0 tmp) p (fst st2)) by (subst x'; rewrite s_gen_set, <- B1; reflexivity).
      destruct (as_type_expr_frame _ _ _ _ _ _ E1 ltac:(rewrite F1; exact WF)) as [[G2 _] LT].
      assert (W2 : gwf (fst st2)) by (eapply grows_gwf; [exact G2|rewrite F1; exact WF]).
      rewrite F1 in LT. pose proof (has_load _ _ HS) as LD. rewrite SX in LD.
      assert (LD2 : loaded (fst st2) (s_pc x)) by (eapply loaded_emit; [exact LD|exact W2|unfold s_pc; clear -LT; lia]).
      assert (E2 : compile_as (snd x) (Some t) e (start_pos e) tmp st1 = COk (st2, t)).
      { unfold compile_as. unfold compile_expr_as_type in E1. rewrite E1. reflexivity. }
      pose proof (temp_sim _ _ _ _ _ _ _ _ _ _ _ c m s r s' XL E E0 E2 WF LD2 LO ST PC EV) as B.
      destruct B as [B|B]; [left; exact B|right]. destruct r as [d|er]; [|exact B].
      destruct B as (c1 & m1 & R1 & P1 & Q1 & H1).
      assert (FT : fetched img (c_pc c1) (IMove r0 tmp)).
      { rewrite P1. eapply loaded_at; [exact LD|unfold s_pc; clear -LT; lia|discriminate]. }
      assert (GO1 : go c m c1 m1) by (eapply go_reach; [exact R1|unfold top_slot; lia|exact FP]).
      assert (FP1 : 64 <= c_fp c1) by (rewrite (go_fp _ _ _ _ _ _ _ GO1); exact FP).
      destruct (gwrite powf img upcall L hidden (snd x) (Some r0) K (c_fp c1) r0 r0 c1 m1 s' _ (get_reg c1 tmp)
        (holding_skip _ _ _ _ _ H1) FT eq_refl (or_introl eq_refl) (or_introl eq_refl)) as [R2 H2].
      eexists _, m1. split; [eapply go_trans; [exact GO1|eapply go_reach; [exact R2|apply le_n|exact FP1]]|].
      split.
      * change (S (c_pc c1) = s_pc x'). rewrite P1. unfold s_pc. rewrite SX, emit_pc. reflexivity.
      * eapply state_ext; [exact XX|apply HS|].
        eapply holding_put; [apply (kn_ok _ _ K)|exact H2|exact G'|]. rewrite get_written. exact Q1.
    + destruct (bind (compile_expr_as_type (snd x) e r0 t (s_gen x, frozen (snd x))) _) as [[g2 l2]| |] eqn:B in H; try discriminate H.
      apply COk_inj in H. apply pair_inj in H as [<- <-].
      apply bind_ok in B as (st2 & E1 & B). apply COk_inj in B. apply pair_inj in B as [B1 B2].
      assert (SX : s_gen x' = fst st2) by (subst x'; rewrite s_gen_set, <- B1; reflexivity).
      assert (E2 : compile_as (snd x) (Some t) e (start_pos e) r0 (s_gen x, frozen (snd x)) = COk (st2, t)).
      { unfold compile_as. unfold compile_expr_as_type in E1. rewrite E1. reflexivity. }
      assert (B : gsettles (snd x) (Some r0) (next_pc (fst st2)) (top_slot (snd x) c (frozen (snd x))) r0 t c m r s').
      { eapply (as_works powf img upcall L hidden calls ups entry (snd x) (Some r0) K (Some t) e (start_pos e) r0 (s_gen x, frozen (snd x)) st2);
          try eassumption.
        - apply expr_works; assumption.
        - cbn [fst]. rewrite <- SX. apply HS.
        - eapply fine_direct; eassumption.
        - apply holding_skip, ST.
        - apply (spare_all (snd x) c r0 (s_gen x, frozen (snd x))). cbn [snd]. apply (var_slot powf _ _ _ _ _ _ (by_now_wf _ _ K) G FP).
        - left. reflexivity.
        - eapply apart_topmost, CA. }
      destruct B as [B|B]; [left; exact B|right]. destruct r as [d|er]; [|exact B].
      destruct B as (c1 & m1 & R1 & P1 & Q1 & H1).
      exists c1, m1. split; [eapply go_reach; [exact R1|unfold top_slot; lia|exact FP]|].
      split; [rewrite P1, <- SX; reflexivity|].
      eapply state_ext; [exact XX|apply HS|]. eapply holding_put; [apply (kn_ok _ _ K)|exact H1|exact G'|exact Q1].
  - (* it is new *)
    destruct (get_callable _ _) eqn:GC in H0; [discriminate H0|].
    destruct (put_local (snd x) _ _) as [[l2 [r2|er2]]|] eqn:PL; try discriminate H0.
    apply COk_inj in H0. injection H0 as -> -> <- <-. cbn [andb] in H.
    destruct (put_local_grows _ _ _ _ _ PL) as (LG & NK & i & RI & LL & GG & II).
    assert (U : undefined (get_local_or_global (snd x) v)) by (rewrite G; exact Logic.I).
    pose proof (register_local_range _ _ RI) as RR.
    set (w0 := mkVarRef (vr_name v) None).
    (* Whatever the type, in the end. *)
    assert (FIN : forall ot st2 te, compile_as l0 ot e (start_pos e) reg (s_gen x, frozen l0) = COk (st2, te) ->
      match ot with Some _ => ot | None => Some te end = Some t ->
      ls_locals (snd x') = ls_locals (snd x) ++ [(symkey (vr_name v), (PScalar te, i))] -> ls_global (snd x') = ls_global (snd x) ->
      s_gen x' = fst st2 -> stuck c m \/ assigned x' c m (ascii_upper (vr_name v)) r s').
    { intros ot st2 te CE OT LX GX SX.
      assert (te = t) as ->.
      { destruct ot as [t1|]; [|congruence]. unfold compile_as in CE. apply bind_ok in CE as (y & _ & CE). apply COk_inj, pair_inj in CE as [_ <-]. congruence. }
      assert (LK : exists e', id_get ustr_eqb (ls_locals L) (symkey (vr_name v)) = Some e').
      { destruct (has_syms _ _ HS) as ([n E] & _). eexists. rewrite E. apply get_ext. rewrite LX. apply get_app_none. exact NK. }
      assert (NSH : is_shared L (symkey (vr_name v)) = false).
      { apply contains_get. destruct LK as [e' LK]. destruct (L_ns (symkey (vr_name v))) as [X|X]; [congruence|exact X]. }
      assert (KL : knowing l0).
      { destruct XL as ([n E] & GE & UE & US). apply knowing_tables; rewrite ?GG; auto.
        - destruct LG as [[_ X] _ _ _ _]. apply X. apply (kn_ok _ _ K).
        - intros k y Q. rewrite LL in Q. destruct (ustr_eqb (symkey (vr_name v)) k) eqn:EK; [apply ustr_eqb_eq in EK; subst k; exact LK|].
          rewrite key_other in Q by (intros ->; rewrite ustr_eqb_refl in EK; discriminate EK). exists y. rewrite E. apply get_ext, Q.
        - intros k t1 n1 i1 Q. rewrite LL in Q. destruct (ustr_eqb (symkey (vr_name v)) k) eqn:EK.
          + apply ustr_eqb_eq in EK. subst k. rewrite (get_app_none _ _ _ NK) in Q. discriminate Q.
          + rewrite key_other in Q by (intros ->; rewrite ustr_eqb_refl in EK; discriminate EK). exists i1. rewrite E. apply get_ext, Q. }
      assert (VN : vals s (symkey (vr_name v)) = None).
      { destruct (vals s (symkey (vr_name v))) as [y|] eqn:V; [exfalso|reflexivity].
        apply (known_defined _ _ _ _ _ _ _ ST V). unfold get_local_or_global, get_global, get_var. cbn [by_now ls_locals ls_global].
        rewrite NK. apply contains_get in NSH. rewrite NSH. exact Logic.I. }
      assert (OTHER : forall ls w, ls_locals ls = ls_locals (snd x) ++ [(symkey (vr_name v), (PScalar t, i))] \/ ls_locals ls = ls_locals l0 ->
        symkey (vr_name w) <> symkey (vr_name v) -> get_local_or_global (by_now L ls) w = get_local_or_global (by_now L (snd x)) w).
      { intros ls w LE NE. destruct LE as [LE|LE]; (eapply lookup_other; [cbn [by_now ls_locals]; rewrite LE; try exact LL; reflexivity|reflexivity|exact NE]). }
      assert (ST0 : holding l0 (Some reg) c m s).
      { apply holding_skip. eapply holding_tables; [exact ST|reflexivity|]. intros w y V. split; [exact V|].
        apply OTHER; [right; reflexivity|]. intros Q. rewrite Q in V. congruence. }
      assert (LOOK : forall ls q, ls_locals ls = ls_locals (snd x) ++ [(symkey (vr_name v), (q, i))] ->
         get_local_or_global (by_now L ls) w0 = Ok (reg, q)).
      { intros ls q LE. unfold get_local_or_global, get_var. cbn [by_now ls_locals ls_global]. change (symkey (vr_name w0)) with (symkey (vr_name v)).
        rewrite LE, (get_app_none _ _ _ NK), RI. reflexivity. }
      assert (FI : fine L l0 (Some reg) s e).
      { eapply within_impl; [|exact LO]. intros called w _.
        assert (CLR : clear L l0 (Some reg) s w).
        { intros v' r' p' SK E G2. injection E as <-.
          assert (KK : symkey (vr_name v') = symkey (vr_name w0)) by (eapply lookup_inj; [apply (kn_ok _ _ KL)|exact G2|apply LOOK; exact LL]).
          rewrite <- SK, KK. auto. }
        split; [destruct called; cbn [named]; auto|]. intros md q _ _ E. injection E as <-. apply RR. }
      assert (EV' : exists r', Call_Spec.evals_as powf callable (is_variable L) calls s ot e r' s' /\
         match ot, r' with None, Ok d => convert t d = Some r | _, _ => r = r' end).
      { destruct ot as [t1|]; [injection OT as ->; exists r; auto|].
        inversion EV as [? ? ? a ? q X1 X2|? ? ? er ? X1]; subst.
        - exists (Ok a). split; [eapply A_value; [exact X1|reflexivity]|exact X2].
        - exists (Err er). split; [apply Call_Spec.A_fails; exact X1|reflexivity]. }
      destruct EV' as (r' & EV' & RE).
      assert (B : gsettles l0 (Some reg) (next_pc (fst st2)) (top_slot l0 c (frozen l0)) reg t c m r' s').
      { eapply (as_works powf img upcall L hidden calls ups entry l0 (Some reg) KL ot e (start_pos e) reg (s_gen x, frozen l0) st2);
          try eassumption.
        - apply expr_works; assumption.
        - cbn [fst]. rewrite <- SX. apply HS.
        - apply (spare_all l0 c reg (s_gen x, frozen l0)). cbn [snd]. eapply new_index; eassumption.
        - apply RR.
        - left. reflexivity.
        - eapply apart_topmost, CA. }
      destruct B as [B|B]; [left; exact B|right].
      destruct r' as [d|er]; [|assert (r = Err er) as -> by (destruct ot; exact RE); exact B].
      destruct B as (c1 & m1 & R1 & P1 & Q1 & H1).
      assert (r = Ok d) as -> by (destruct ot; [exact RE|rewrite (convert_same _ _ _ _ _ Q1) in RE; congruence]).
      exists c1, m1. split; [eapply go_reach; [exact R1|unfold top_slot; lia|exact FP]|].
      split; [rewrite P1, <- SX; reflexivity|].
      change (ascii_upper (vr_name v)) with (ascii_upper (vr_name w0)).
      eapply holding_put; [apply (kn_ok _ _ (knowing_ext _ (has_syms _ _ HS)))| |apply LOOK; exact LX|exact Q1].
      eapply holding_tables; [exact H1|reflexivity|]. intros w y V. split; [exact V|].
      assert (NE : symkey (vr_name w) <> symkey (vr_name v)).
      { intros Q. rewrite Q in V.
        rewrite (proj1 (proj2 (evals_local powf L calls calls_local)) _ _ _ _ _ EV _ NSH VN) in V. discriminate V. }
      rewrite (OTHER (snd x') w (or_introl LX) NE), (OTHER l0 w (or_intror eq_refl) NE). reflexivity. }
    destruct (vr_type v) as [tv|] eqn:VT.
    + unfold map_error in H.
      destruct (bind (compile_expr_as_type l0 e reg tv (s_gen x, frozen l0)) _) as [[g2 l3]| |] eqn:B in H; try discriminate H.
      apply COk_inj in H. apply pair_inj in H as [<- <-].
      apply bind_ok in B as (st2 & E1 & B). apply COk_inj in B. apply pair_inj in B as [B1 B2].
      assert (SX : s_gen x' = fst st2) by (subst x'; rewrite s_gen_set, <- B1; reflexivity).
      assert (LX : ls_locals (snd x') = ls_locals l0) by (subst x'; cbn [snd]; rewrite <- B2; reflexivity).
      assert (GX : ls_global (snd x') = ls_global l0) by (subst x'; cbn [snd]; rewrite <- B2; reflexivity).
      assert (TT : tv = t).
      { assert (D : ty (ascii_upper (vr_name v)) = Some tv).
        { eapply (declared_new (snd x') v); [apply HS|]. rewrite LX, LL. apply get_app_none. exact NK. }
        rewrite TY in D. injection D as ->. reflexivity. }
      subst tv. apply (FIN (Some t) st2 t); [|reflexivity|rewrite LX; exact LL|rewrite GX; exact GG|exact SX].
      unfold compile_as. unfold compile_expr_as_type in E1. rewrite E1. reflexivity.
    + apply bind_ok in H as ([st2 te] & E1 & H).
      destruct (fixup_local_type (thaw l0 (snd st2)) v te) as [l3|] eqn:FX; [|discriminate H].
      apply COk_inj in H. apply pair_inj in H as [B1 ->].
      assert (SX : s_gen x' = fst st2) by (subst x'; rewrite s_gen_set, <- B1; reflexivity).
      assert (LX : ls_locals (snd x') = ls_locals (snd x) ++ [(symkey (vr_name v), (PScalar te, i))] /\ ls_global (snd x') = ls_global (snd x)).
      { subst x'. cbn [snd]. unfold fixup_local_type in FX. cbn [thaw ls_locals ls_global ls_count_temps ls_active_temps] in FX.
        rewrite LL in FX. rewrite (get_app_none _ _ _ NK) in FX. apply Ok_inj in FX. subst l1. cbn [ls_locals ls_global].
        split; [apply set_new; exact NK|exact GG]. }
      destruct LX as [LX GX].
      assert (TT : te = t).
      { assert (D : ty (ascii_upper (vr_name v)) = Some te).
        { eapply (declared_new (snd x') v); [apply HS|]. rewrite LX. apply get_app_none. exact NK. }
        rewrite TY in D. injection D as ->. reflexivity. }
      subst te. apply (FIN None st2 t); [exact E1|reflexivity|exact LX|exact GX|exact SX].
Qed.
End Sim.
