(** Proofs about symbol tables. *)
From Verif Require Import Base Bytecode_Model Vm_Model Ids_Model Ids_Spec Ids_Proofs Ast_Model
  Syms_Model Syms_Spec.

Lemma etype_eqb_eq a b : etype_eqb a b = true <-> a = b.
Proof. destruct a, b; cbn; split; (reflexivity || discriminate). Qed.

Lemma upper_lower1 a b : upper1 a = upper1 b <-> lower1 a = lower1 b.
Proof.
  unfold upper1, lower1.
  repeat match goal with |- context [if ?x then _ else _] => destruct x eqn:? end;
  repeat match goal with
  | H : andb _ _ = true |- _ => apply andb_true_iff in H as [? ?]
  | H : andb _ _ = false |- _ => apply andb_false_iff in H as [?|?]
  | H : N.leb _ _ = true |- _ => apply N.leb_le in H
  | H : N.leb _ _ = false |- _ => apply N.leb_gt in H
  end; lia.
Qed.

Lemma symkey_same a b : symkey a = symkey b <-> same_name a b.
Proof.
  unfold symkey, same_name, ascii_upper, ascii_lower. revert b.
  induction a as [|x a IH]; intros [|y b]; cbn; split; intros H; try reflexivity; try discriminate.
  - injection H as H1 H2. f_equal; [apply upper_lower1|apply IH]; assumption.
  - injection H as H1 H2. f_equal; [apply upper_lower1|apply IH]; assumption.
Qed.

Lemma ueqb a b : ustr_eqb a b = true <-> a = b.
Proof. apply ustr_eqb_eq. Qed.

(** The keys of the definitions. *)
Definition keys (defs : list (ustr * proto)) : list ustr := map (fun d => symkey (fst d)) defs.

(** A table holds exactly these definitions. *)
Definition table_of (defs : list (ustr * proto)) (t : symtab) : Prop :=
  wf t (keys defs) /\
  forall name, id_get ustr_eqb t (symkey name) =
    match find_def defs name with Some (i, p) => Some (p, N.of_nat i) | None => None end.

Lemma table_empty : table_of [] [].
Proof. split; [apply wf_empty|reflexivity]. Qed.

Lemma find_def_app defs name p x :
  find_def (defs ++ [(name, p)]) x =
    match find_def defs x with
    | Some r => Some r
    | None => if same_name_dec name x then Some (length defs, p) else None
    end.
Proof.
  induction defs as [|[n q] defs IH]; cbn [find_def app length].
  - destruct (same_name_dec name x); reflexivity.
  - destruct (same_name_dec n x); [reflexivity|]. rewrite IH.
    destruct (find_def defs x) as [[i r]|]; [reflexivity|].
    destruct (same_name_dec name x); reflexivity.
Qed.

Lemma find_def_none defs name : find_def defs name = None <-> ~ In (symkey name) (keys defs).
Proof.
  induction defs as [|[n q] defs IH]; cbn; [tauto|].
  rewrite (symkey_same n name). destruct (same_name_dec n name) as [S|S].
  - split; [discriminate|tauto].
  - destruct (find_def defs name) as [[i r]|]; split; intros H; try discriminate; try reflexivity.
    + exfalso. apply H. right. destruct (in_dec ustr_dec (symkey name) (keys defs)); [assumption|].
      exfalso. assert (@Some (nat * proto) (i, r) = None) by (apply IH; assumption). discriminate.
    + intros [E|E]; [tauto|]. apply (proj1 IH); [reflexivity|assumption].
Qed.

Lemma find_def_nth defs name i p : find_def defs name = Some (i, p) ->
  exists n, nth_error defs i = Some (n, p) /\ same_name n name.
Proof.
  revert i. induction defs as [|[n q] defs IH]; intros i; cbn; [discriminate|].
  destruct (same_name_dec n name).
  - intros H. injection H as <- <-. cbn. eauto.
  - destruct (find_def defs name) as [[j r]|]; [|discriminate]. intros H. injection H as <- <-.
    cbn. apply IH. reflexivity.
Qed.

Lemma keys_length defs : length (keys defs) = length defs.
Proof. apply map_length. Qed.

Lemma table_len defs t : table_of defs t -> id_len t = length defs.
Proof. intros [W _]. rewrite (wf_len _ _ W). apply keys_length. Qed.

Lemma keys_distinct defs : NoDup (keys defs) <-> names_distinct defs.
Proof.
  unfold names_distinct. split.
  - intros D i j a b Hi Hj S. apply symkey_same in S.
    apply (map_nth_error (fun d => symkey (fst d))) in Hi, Hj. fold (keys defs) in Hi, Hj.
    rewrite NoDup_nth_error in D. apply D; [|congruence]. apply nth_error_Some. congruence.
  - intros H. apply NoDup_nth_error. intros i j Li E. unfold keys in *.
    rewrite map_length in Li.
    destruct (nth_error defs i) as [a|] eqn:Hi; [|apply nth_error_None in Hi; lia].
    rewrite (map_nth_error _ _ _ Hi) in E.
    destruct (nth_error defs j) as [b|] eqn:Hj.
    + rewrite (map_nth_error _ _ _ Hj) in E. injection E as E. apply symkey_same in E.
      exact (H i j a b Hi Hj E).
    + apply nth_error_None in Hj.
      assert (X : nth_error (map (fun d : ustr * proto => symkey (fst d)) defs) j = None)
        by (apply nth_error_None; rewrite map_length; assumption).
      rewrite X in E. discriminate.
Qed.

(** Defining a new name. *)
Lemma put_var_new defs t name p mk s : table_of defs t -> find_def defs name = None ->
  length defs < 256 ->
  exists t', put_var (symkey name) p t mk s =
      Some (t', match mk (N.of_nat (length defs)) with
                | Some r => Ok r | None => Err (SeOutOfRegisters s) end) /\
    table_of (defs ++ [(name, p)]) t'.
Proof.
  intros [W G] F L. pose proof (proj1 (find_def_none defs name) F) as NI.
  destruct (wf_insert_new ustr_eqb ueqb ustr_dec u8_ids t (keys defs) (symkey name) p W NI)
    as (t' & E & W' & G').
  { rewrite keys_length. unfold u8_ids. lia. }
  rewrite keys_length in E, G'. exists t'. unfold put_var. rewrite E. split; [reflexivity|].
  split.
  - unfold keys. rewrite map_app. exact W'.
  - intros x. rewrite G', find_def_app.
    destruct (ustr_eqb (symkey name) (symkey x)) eqn:Q.
    + apply ueqb, symkey_same in Q.
      assert (find_def defs x = None) as ->.
      { apply find_def_none. apply symkey_same in Q. rewrite <- Q. assumption. }
      destruct (same_name_dec name x); [reflexivity|contradiction].
    + rewrite G. destruct (find_def defs x) as [[i q]|]; [reflexivity|].
      destruct (same_name_dec name x) as [S|S]; [|reflexivity].
      apply symkey_same in S. rewrite S, ustr_eqb_refl in Q. discriminate.
Qed.

Lemma put_var_old defs t name p mk s : table_of defs t -> find_def defs name <> None ->
  put_var (symkey name) p t mk s = None.
Proof.
  intros [W G] F. assert (I : In (symkey name) (keys defs)).
  { destruct (in_dec ustr_dec (symkey name) (keys defs)); [assumption|]. exfalso. apply F.
    apply find_def_none. assumption. }
  destruct (wf_insert_old ustr_eqb ueqb u8_ids t (keys defs) (symkey name) p W I)
    as (prev & i & t' & _ & E & _). unfold put_var. rewrite E. reflexivity.
Qed.

Lemma put_var_ok defs t name p mk s t' r : table_of defs t ->
  put_var (symkey name) p t mk s = Some (t', Ok r) ->
  find_def defs name = None /\ mk (N.of_nat (length defs)) = Some r /\
  table_of (defs ++ [(name, p)]) t'.
Proof.
  intros T E. destruct (find_def defs name) as [d|] eqn:F.
  - rewrite (put_var_old defs) in E; [discriminate|assumption|congruence].
  - destruct (le_lt_dec 256 (length defs)) as [L|L].
    + destruct T as [W G]. pose proof (proj1 (find_def_none defs name) F) as NI.
      unfold put_var in E.
      rewrite (wf_insert_full ustr_eqb ueqb ustr_dec u8_ids t (keys defs) (symkey name) p W NI) in E.
      * discriminate.
      * rewrite keys_length. unfold u8_ids. lia.
    + destruct (put_var_new defs t name p mk s T F L) as (t'' & E' & T').
      rewrite E' in E. destruct (mk (N.of_nat (length defs))) as [r'|]; [|discriminate].
      injection E as <- <-. auto.
Qed.

Lemma put_local_new ls l name p : table_of ls (ls_locals l) -> find_def ls name = None ->
  length ls < 256 ->
  exists l', put_local l (symkey name) p =
      Some (l', match register_local (N.of_nat (length ls)) with
                | Some r => Ok r | None => Err (SeOutOfRegisters ScLocal) end) /\
    table_of (ls ++ [(name, p)]) (ls_locals l') /\ ls_global l' = ls_global l.
Proof.
  intros T F L. destruct (put_var_new ls _ name p register_local ScLocal T F L) as (t' & E & T').
  unfold put_local. rewrite E. eexists. split; [reflexivity|]. split; [exact T'|reflexivity].
Qed.

Lemma put_global_new gs l name p : table_of gs (gs_vars (ls_global l)) -> find_def gs name = None ->
  length gs < 256 ->
  exists l', ls_put_global l (symkey name) p =
      Some (l', match register_global (N.of_nat (length gs)) with
                | Some r => Ok r | None => Err (SeOutOfRegisters ScGlobal) end) /\
    table_of (gs ++ [(name, p)]) (gs_vars (ls_global l')) /\ ls_locals l' = ls_locals l.
Proof.
  intros T F L. destruct (put_var_new gs _ name p register_global ScGlobal T F L) as (t' & E & T').
  unfold ls_put_global, put_global. rewrite E. eexists. split; [reflexivity|].
  split; [exact T'|reflexivity].
Qed.

(** Every table built by definitions holds those definitions, in registers that exist. *)
Lemma defined_tables ls gs l : defined ls gs l ->
  table_of ls (ls_locals l) /\ table_of gs (gs_vars (ls_global l)) /\
  length ls <= 192 /\ length gs <= 64.
Proof.
  induction 1 as [g E|ls gs l name p l' r D IH E|ls gs l name p l' r D IH E].
  - cbn. rewrite E. repeat split; try apply table_empty; try apply wf_empty; try lia; reflexivity.
  - destruct IH as (T & G & Ll & Lg). unfold put_local in E.
    destruct (put_var _ _ _ _ _) as [[t q]|] eqn:P; [|discriminate]. injection E as <- ->.
    destruct (put_var_ok ls _ name p _ _ _ _ T P) as (F & M & T').
    cbn. unfold register_local in M. destruct (N.leb_spec (N.of_nat (length ls) + max_global) max_register); [|discriminate].
    unfold max_global, max_register in *. rewrite app_length. cbn [length].
    split; [exact T'|]. split; [exact G|]. split; lia.
  - destruct IH as (T & G & Ll & Lg). unfold ls_put_global, put_global in E.
    destruct (put_var _ _ _ _ _) as [[t q]|] eqn:P; [|discriminate]. injection E as <- ->.
    destruct (put_var_ok gs _ name p _ _ _ _ G P) as (F & M & T').
    cbn. unfold register_global in M. destruct (N.ltb_spec (N.of_nat (length gs)) max_global); [|discriminate].
    unfold max_global in *. rewrite app_length. cbn [length].
    split; [exact T|]. split; [exact T'|]. split; lia.
Qed.

Lemma accepts_suffix v p :
  accepts v (match p with PArray t _ => t | PScalar t => t end) = suffix_ok v p.
Proof.
  unfold accepts, suffix_ok. destruct (vr_type v) as [t|]; [|reflexivity].
  destruct (etype_dec t _) as [->|N].
  - apply etype_eqb_eq. reflexivity.
  - destruct (etype_eqb t _) eqn:E; [apply etype_eqb_eq in E; contradiction|reflexivity].
Qed.

Lemma get_var_found defs t v mk s i p r : table_of defs t ->
  find_def defs (vr_name v) = Some (i, p) -> mk (N.of_nat i) = Some r ->
  get_var v t mk s = if suffix_ok v p then Ok (r, p) else Err (SeIncompatible v).
Proof.
  intros [W G] F M. unfold get_var. rewrite G, F, accepts_suffix, M. reflexivity.
Qed.

Lemma get_var_none defs t v mk s : table_of defs t -> find_def defs (vr_name v) = None ->
  get_var v t mk s = Err (SeUndefined v s).
Proof. intros [W G] F. unfold get_var. rewrite G, F. reflexivity. Qed.

Lemma find_def_lt defs name i p : find_def defs name = Some (i, p) -> i < length defs.
Proof. intros H. apply find_def_nth in H as (n & H & _). apply nth_error_Some. congruence. Qed.

Lemma local_reg i : i < 192 -> register_local (N.of_nat i) = Some (64 + N.of_nat i)%N.
Proof.
  intros L. unfold register_local, max_global, max_register.
  destruct (N.leb_spec (N.of_nat i + 64) 255); [f_equal; lia|lia].
Qed.

Lemma local_reg_none i : 192 <= i -> register_local (N.of_nat i) = None.
Proof.
  intros L. unfold register_local, max_global, max_register.
  destruct (N.leb_spec (N.of_nat i + 64) 255); [lia|reflexivity].
Qed.

Lemma global_reg i : i < 64 -> register_global (N.of_nat i) = Some (N.of_nat i).
Proof.
  intros L. unfold register_global, max_global. destruct (N.ltb_spec (N.of_nat i) 64); [reflexivity|lia].
Qed.

Lemma global_reg_none i : 64 <= i -> register_global (N.of_nat i) = None.
Proof.
  intros L. unfold register_global, max_global. destruct (N.ltb_spec (N.of_nat i) 64); [lia|reflexivity].
Qed.

(** Lookups through tables that hold the given definitions. *)
Lemma lookup_resolve ls gs l v :
  table_of ls (ls_locals l) -> table_of gs (gs_vars (ls_global l)) ->
  length ls <= 192 -> length gs <= 64 ->
  get_local_or_global l v = resolve ls gs v.
Proof.
  intros T G Ll Lg. unfold get_local_or_global, resolve, get_global.
  destruct (find_def ls (vr_name v)) as [[i p]|] eqn:F.
  - rewrite (get_var_found ls _ v _ _ i p (64 + N.of_nat i)%N T F).
    + destruct (suffix_ok v p); reflexivity.
    + apply local_reg. apply find_def_lt in F. lia.
  - rewrite (get_var_none ls _ v _ _ T F).
    destruct (find_def gs (vr_name v)) as [[i p]|] eqn:F'.
    + rewrite (get_var_found gs _ v _ _ i p (N.of_nat i) G F').
      * reflexivity.
      * apply global_reg. apply find_def_lt in F'. lia.
    + apply (get_var_none gs _ v _ _ G F').
Qed.

Lemma contains_local_spec ls l name : table_of ls (ls_locals l) ->
  contains_local l (symkey name) = match find_def ls name with Some _ => true | None => false end.
Proof. intros [W G]. unfold contains_local. rewrite G. destruct (find_def ls name) as [[? ?]|]; reflexivity. Qed.

Lemma contains_global_spec gs g name : table_of gs (gs_vars g) ->
  contains_global g (symkey name) = match find_def gs name with Some _ => true | None => false end.
Proof. intros [W G]. unfold contains_global. rewrite G. destruct (find_def gs name) as [[? ?]|]; reflexivity. Qed.

(** * Temporaries *)

Lemma Ok_inj {E A} (x y : A) : @Ok E A x = Ok y -> x = y.
Proof. congruence. Qed.

Lemma temp_register_ok n t :
  temp_register n t = if (n + t <? 192)%N then Ok (64 + n + t)%N else Err (SeOutOfRegisters ScTemp).
Proof.
  unfold temp_register, u8_ids, register_local, max_global, max_register.
  destruct (N.ltb_spec (n + t) 192).
  - destruct (N.ltb_spec (n + t) 256); [|lia]. destruct (N.leb_spec (n + t + 64) 255); [f_equal; lia|lia].
  - destruct (N.ltb_spec (n + t) 256); [|reflexivity].
    destruct (N.leb_spec (n + t + 64) 255); [lia|reflexivity].
Qed.

(** The invariant of nested scopes: each scope's registers are consecutive, starting where the
    enclosing one's end. *)
Fixpoint scopes_ok (n base : N) (o : open_scopes) (next : N) : Prop :=
  match o with
  | [] => next = base
  | (s, regs) :: o' =>
      sc_nlocals s = n /\ sc_ntemps s = N.of_nat (length regs) /\
      next = (sc_base s + sc_ntemps s)%N /\
      regs = map (fun k => (64 + n + sc_base s + N.of_nat k)%N) (seq 0 (length regs)) /\
      scopes_ok n base o' (sc_base s)
  end.

Lemma scopes_next n base o : forall next, scopes_ok n base o next -> (base <= next)%N.
Proof.
  induction o as [|[s regs] o IH]; cbn [scopes_ok]; intros next H; [lia|].
  destruct H as (_ & _ & -> & _ & H). apply IH in H. lia.
Qed.

Lemma map_seq_shift (c : N) m : forall a b,
  map (fun k => (c + N.of_nat k)%N) (seq (a + b) m) =
  map (fun k => (c + N.of_nat a + N.of_nat k)%N) (seq b m).
Proof.
  induction m as [|m IH]; intros a b; cbn [seq map]; [reflexivity|].
  f_equal; [lia|]. rewrite <- IH. f_equal. f_equal. lia.
Qed.

Lemma scopes_live n base o : forall next, scopes_ok n base o next ->
  live_temps o = map (fun k => (64 + n + base + N.of_nat k)%N) (seq 0 (N.to_nat (next - base))).
Proof.
  induction o as [|[s regs] o IH]; intros next H.
  - cbn in H. subst. rewrite N.sub_diag. reflexivity.
  - cbn [scopes_ok] in H. destruct H as (_ & Hn & -> & Hr & H). pose proof (scopes_next _ _ _ _ H) as L.
    unfold live_temps in *. cbn [map rev]. rewrite concat_app, (IH _ H).
    cbn [concat snd]. rewrite app_nil_r, Hr, Hn.
    replace (N.to_nat (sc_base s + N.of_nat (length regs) - base))
      with (N.to_nat (sc_base s - base) + length regs) by lia.
    rewrite seq_app, map_app. f_equal. cbn [plus].
    rewrite <- (Nat.add_0_r (N.to_nat (sc_base s - base))), map_seq_shift.
    apply map_ext. intros k. lia.
Qed.

Lemma temp_run_ok l ops o t : temp_run l ops o t ->
  scopes_ok (N.of_nat (id_len (ls_locals l))) (ls_active_temps l) o (ts_next t).
Proof.
  induction 1 as [|ops o t s R IH E|ops s regs o t r s' t' R IH E|ops s regs o t R IH].
  - reflexivity.
  - unfold temp_scope in E. destruct (_ <? _)%N; [|discriminate]. injection E as <-.
    cbn [scopes_ok sc_nlocals sc_ntemps sc_base length seq map]. repeat split; [lia|exact IH].
  - unfold scope_alloc in E. destruct (_ <? _)%N; [|discriminate].
    destruct (temp_register _ _) as [q|] eqn:Q; [|discriminate]. injection E as <- <- <-.
    rewrite temp_register_ok in Q. destruct (_ <? _)%N; [|discriminate].
    apply Ok_inj in Q. subst q.
    cbn [scopes_ok sc_nlocals sc_ntemps sc_base ts_next] in IH |- *. destruct IH as (A & B & C & D & F). rewrite app_length. cbn [length].
    repeat split; try assumption; try lia.
    rewrite Nat.add_1_r, seq_S, map_app. f_equal; [exact D|]. cbn [plus map].
    rewrite C, A, B. f_equal. lia.
  - cbn [scopes_ok] in IH. destruct IH as (A & B & C & D & F). cbn [scope_drop ts_next]. rewrite C.
    replace (sc_base s + sc_ntemps s - sc_ntemps s)%N with (sc_base s) by lia. exact F.
Qed.

Lemma temp_run_count l ops o t : temp_run l ops o t ->
  (ts_next t <= ts_count t)%N.
Proof.
  induction 1 as [|ops o t s R IH E|ops s regs o t r s' t' R IH E|ops s regs o t R IH];
    cbn in *; try lia; try assumption.
  unfold scope_alloc in E. destruct (_ <? _)%N; [|discriminate].
  destruct (temp_register _ _); [|discriminate]. injection E as <- <- <-. cbn. lia.
Qed.

Lemma temps_bound l ops o t : temp_run l ops o t -> Forall (fun r => (r < 256)%N) (live_temps o).
Proof.
  induction 1 as [|ops o t s R IH E|ops s regs o t r s' t' R IH E|ops s regs o t R IH].
  - constructor.
  - unfold live_temps in *. cbn [map rev snd]. rewrite concat_app. cbn. rewrite app_nil_r. exact IH.
  - unfold live_temps in *. cbn [map rev snd] in *. rewrite concat_app in *. cbn [concat] in *.
    rewrite app_nil_r in *. rewrite app_assoc. apply Forall_app. split; [exact IH|].
    constructor; [|constructor]. unfold scope_alloc in E. destruct (_ <? _)%N; [|discriminate].
    rewrite temp_register_ok in E. destruct (N.ltb_spec (sc_nlocals s + ts_next t) 192); [|discriminate].
    assert (r = (64 + sc_nlocals s + ts_next t)%N) by congruence. lia.
  - unfold live_temps in *. cbn [map rev snd] in *. rewrite concat_app in IH.
    apply Forall_app in IH. tauto.
Qed.

Lemma Ok_pair {E A B} (a c : A) (b d : B) : @Ok E (A * B) (a, b) = Ok (c, d) -> a = c /\ b = d.
Proof. intros H. split; congruence. Qed.
