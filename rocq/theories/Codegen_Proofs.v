(** Proofs about the code generator: what its operations keep. *)
From Coq Require Import Permutation.
From Verif Require Import Base Bytecode_Model Mem_Model Mem_Spec Mem_Proofs Vm_Model Ids_Model Ids_Spec Ids_Proofs
  Ast_Model Syms_Model Syms_Proofs Codegen_Model.

Lemma COk_inj {A} (a b : A) : COk a = COk b -> a = b.
Proof. congruence. Qed.
Lemma pair_inj {A B} (a c : A) (b d : B) : (a, b) = (c, d) -> a = c /\ b = d.
Proof. split; congruence. Qed.
Lemma bind_ok {A B} (x : cres A) (f : A -> cres B) r : bind x f = COk r ->
  exists a, x = COk a /\ f a = COk r.
Proof. destruct x; cbn [bind]; intros H; [eauto|discriminate|discriminate]. Qed.

(** Takes apart a successful computation one step. *)
Ltac inv1 :=
  match goal with
  | H : CErr _ = COk _ |- _ => discriminate H
  | H : CPanic = COk _ |- _ => discriminate H
  | H : COk _ = COk _ |- _ => apply COk_inj in H
  | H : (_, _) = (_, _) |- _ => apply pair_inj in H; destruct H
  | H : bind _ _ = COk _ |- _ =>
      let a := fresh "a" in let E := fresh "E" in apply bind_ok in H; destruct H as (a & E & H)
  | H : _ = ?x |- _ => is_var x; subst x
  | H : ?x = _ |- _ => is_var x; subst x
  | H : (let '(_, _) := ?p in _) = COk _ |- _ => is_var p; destruct p
  end.
Ltac inv_ok := repeat (inv1; cbn [fst snd] in * ).


Definition gwf (g : codegen) : Prop :=
  length (g_instrs g) = length (g_code g) /\
  (exists ord, wf (g_constants g) ord) /\ (exists ord, wf (g_upcalls g) ord).

(** [g'] continues [g], touching nothing below address [b]. *)
Record grows (b : nat) (g g' : codegen) : Prop := mkGrows {
  gr_len : next_pc g <= next_pc g';
  gr_code : forall a, a < b -> nth_error (g_code g') a = nth_error (g_code g) a;
  gr_meta : forall a, a < b -> nth_error (g_instrs g') a = nth_error (g_instrs g) a;
  gr_meta_len : length (g_instrs g) = length (g_code g) -> length (g_instrs g') = length (g_code g');
  gr_const : forall ord, wf (g_constants g) ord -> exists new, wf (g_constants g') (ord ++ new);
  gr_up : forall ord, wf (g_upcalls g) ord -> exists new, wf (g_upcalls g') (ord ++ new);
  gr_fix : exists new, g_fixups g' = new ++ g_fixups g /\
             Forall (fun f => b <= fst f < next_pc g') new;
  gr_labels : forall k a, assoc (g_labels g) k = Some a -> assoc (g_labels g') k = Some a
}.

Lemma grows_refl b g : grows b g g.
Proof.
  constructor; auto.
  - intros ord W. exists []. rewrite app_nil_r. assumption.
  - intros ord W. exists []. rewrite app_nil_r. assumption.
  - exists []. split; [reflexivity|constructor].
Qed.

Lemma grows_trans b g1 g2 g3 : grows b g1 g2 -> grows b g2 g3 -> grows b g1 g3.
Proof.
  intros [L1 C1 M1 N1 K1 U1 F1 B1] [L2 C2 M2 N2 K2 U2 F2 B2]. constructor.
  - lia.
  - intros a H. rewrite C2, C1 by assumption. reflexivity.
  - intros a H. rewrite M2, M1 by assumption. reflexivity.
  - auto.
  - intros ord W. destruct (K1 _ W) as [n1 W1]. destruct (K2 _ W1) as [n2 W2].
    exists (n1 ++ n2). rewrite app_assoc. assumption.
  - intros ord W. destruct (U1 _ W) as [n1 W1]. destruct (U2 _ W1) as [n2 W2].
    exists (n1 ++ n2). rewrite app_assoc. assumption.
  - destruct F1 as (n1 & E1 & A1), F2 as (n2 & E2 & A2). exists (n2 ++ n1). split.
    + rewrite E2, E1, app_assoc. reflexivity.
    + apply Forall_app. split; [assumption|]. eapply Forall_impl; [|exact A1]. cbn. intros; lia.
  - auto.
Qed.

Lemma grows_weaken b b' g g' : grows b g g' -> b' <= b -> grows b' g g'.
Proof.
  intros [L C M N K U F B] H. constructor; auto.
  - intros a Q. apply C. lia.
  - intros a Q. apply M. lia.
  - destruct F as (n & E & A). exists n. split; [assumption|].
    eapply Forall_impl; [|exact A]. cbn. intros; lia.
Qed.

Lemma grows_gwf b g g' : grows b g g' -> gwf g -> gwf g'.
Proof.
  intros [L C M N K U F B] (W1 & (o1 & W2) & (o2 & W3)). split; [auto|].
  split; [destruct (K _ W2) as [n ?]|destruct (U _ W3) as [n ?]]; eauto.
Qed.

(** The same with only code and metadata changed. *)
Lemma grows_code b g c m :
  length (g_code g) <= length c ->
  (forall a, a < b -> nth_error c a = nth_error (g_code g) a) ->
  (forall a, a < b -> nth_error m a = nth_error (g_instrs g) a) ->
  (length (g_instrs g) = length (g_code g) -> length m = length c) ->
  grows b g (with_code g c m).
Proof.
  intros H1 H2 H3 H4. constructor; cbn [with_code g_code g_instrs g_constants g_upcalls g_fixups g_labels next_pc];
    try assumption; auto.
  - intros ord W. exists []. rewrite app_nil_r. assumption.
  - intros ord W. exists []. rewrite app_nil_r. assumption.
  - exists []. split; [reflexivity|constructor].
Qed.

Lemma grows_emit b i pos g : gwf g -> b <= next_pc g -> grows b g (emit i pos g).
Proof.
  intros (W & _) H. unfold next_pc in H. apply grows_code.
  - rewrite app_length. lia.
  - intros a Q. apply nth_error_app1. lia.
  - intros a Q. apply nth_error_app1. lia.
  - intros Q. rewrite !app_length. cbn [length]. lia.
Qed.

Lemma emit_pc i pos g : next_pc (emit i pos g) = S (next_pc g).
Proof. unfold next_pc, emit, with_code. cbn [g_code]. rewrite app_length. cbn [length]. lia. Qed.

Lemma emit_at i pos g : nth_error (g_code (emit i pos g)) (next_pc g) = Some i.
Proof.
  unfold next_pc, emit, with_code. cbn [g_code]. rewrite nth_error_app2 by lia.
  rewrite Nat.sub_diag. reflexivity.
Qed.

Lemma emit_meta_at i pos g : gwf g ->
  nth_error (g_instrs (emit i pos g)) (next_pc g) = Some (mkMeta pos false []).
Proof.
  intros (W & _). unfold next_pc, emit, with_code. cbn [g_instrs]. rewrite nth_error_app2 by lia.
  rewrite W, Nat.sub_diag. reflexivity.
Qed.

Lemma grows_patch b a i g : b <= a -> grows b g (patch a i g).
Proof.
  intros H. apply grows_code.
  - rewrite upd_length. lia.
  - intros c Q. rewrite upd_nth_other by lia. reflexivity.
  - reflexivity.
  - rewrite upd_length. auto.
Qed.

Lemma patch_pc a i g : next_pc (patch a i g) = next_pc g.
Proof. unfold next_pc, patch, with_code. cbn [g_code]. apply upd_length. Qed.

Lemma grows_mark b a g : b <= a -> grows b g (mark_statement_start a g).
Proof.
  intros H. apply grows_code; auto.
  - intros c Q. destruct (nth_error (g_instrs g) a); [|reflexivity].
    rewrite upd_nth_other by lia. reflexivity.
  - intros Q. destruct (nth_error (g_instrs g) a); [|assumption]. rewrite upd_length. assumption.
Qed.

Lemma grows_set_args b a l g : b <= a -> grows b g (set_arg_linecols a l g).
Proof.
  intros H. apply grows_code; auto.
  - intros c Q. destruct (nth_error (g_instrs g) a); [|reflexivity].
    rewrite upd_nth_other by lia. reflexivity.
  - intros Q. destruct (nth_error (g_instrs g) a); [|assumption]. rewrite upd_length. assumption.
Qed.

Lemma mark_code a g : g_code (mark_statement_start a g) = g_code g.
Proof. reflexivity. Qed.
Lemma mark_pc a g : next_pc (mark_statement_start a g) = next_pc g.
Proof. reflexivity. Qed.
Lemma set_args_pc a l g : next_pc (set_arg_linecols a l g) = next_pc g.
Proof. reflexivity. Qed.

Lemma grows_fixup b a f g : b <= a < next_pc g -> grows b g (add_fixup a f g).
Proof.
  intros H. constructor; cbn [add_fixup g_code g_instrs g_constants g_upcalls g_fixups g_labels next_pc]; auto.
  - intros ord W. exists []. rewrite app_nil_r. assumption.
  - intros ord W. exists []. rewrite app_nil_r. assumption.
  - exists [(a, f)]. split; [reflexivity|]. repeat constructor; apply H.
Qed.

Lemma intern_grows {K V} (keqb : K -> K -> bool) (kdec : forall a b : K, {a = b} + {a <> b})
    (Q : forall a b, keqb a b = true <-> a = b) limit (m m' : @idmap K V) k v p i ord :
  wf m ord -> id_get keqb m k = None -> id_insert keqb limit m k v = Some (m', (p, i)) ->
  i = N.of_nat (length ord) /\ wf m' (ord ++ [k]).
Proof.
  intros W G I. apply (get_none keqb Q) in G. assert (G' : ~ In k ord) by (destruct W as (W & _); congruence).
  destruct (N.ltb_spec (N.of_nat (length ord)) limit) as [L|L].
  - destruct (wf_insert_new keqb Q kdec limit m ord k v W G' L) as (m2 & E & W2 & _).
    rewrite E in I. injection I as J1 J2 J3. subst. split; [reflexivity|]. assumption.
  - rewrite (wf_insert_full keqb Q kdec limit m ord k v W G' L) in I. discriminate.
Qed.

Definition cdatum_dec : forall a b : cdatum, {a = b} + {a <> b}.
Proof.
  intros a b. destruct (cdatum_eqb a b) eqn:E; [left; apply cdatum_eqb_eq; assumption|right].
  intros ->. rewrite (proj2 (cdatum_eqb_eq b b) eq_refl) in E. discriminate.
Defined.

Lemma grows_constant b c pos g g' i : get_constant c pos g = COk (g', i) -> gwf g ->
  grows b g g' /\ g_code g' = g_code g /\ g_instrs g' = g_instrs g /\ g_upcalls g' = g_upcalls g /\
  g_fixups g' = g_fixups g /\
  (forall ord, wf (g_constants g') ord -> nth_error ord (N.to_nat i) = Some c).
Proof.
  unfold get_constant. intros H (W1 & (o & W2) & W3).
  destruct (id_get cdatum_eqb (g_constants g) c) as [[t j]|] eqn:G.
  - inv_ok. split; [apply grows_refl|]. repeat split. intros ord W.
    exact (wf_get_pos cdatum_eqb cdatum_eqb_eq cdatum_dec _ _ _ _ _ W G).
  - destruct (id_insert cdatum_eqb u16_ids (g_constants g) c (cdatum_etype c)) as [[m [p j]]|] eqn:I;
      [|discriminate].
    inv_ok. split; [|repeat split].
    + constructor; cbn [g_code g_instrs g_constants g_upcalls g_fixups g_labels next_pc]; auto.
      * intros ord W.
        destruct (intern_grows _ cdatum_dec cdatum_eqb_eq _ _ _ _ _ _ _ _ W G I) as [_ W'].
        exists [c]. assumption.
      * intros ord W. exists []. rewrite app_nil_r. assumption.
      * exists []. split; [reflexivity|constructor].
    + cbn [g_constants]. intros ord W.
      destruct (intern_grows _ cdatum_dec cdatum_eqb_eq _ _ _ _ _ _ _ _ W2 G I) as [-> (A & _)].
      destruct W as (B & _). rewrite <- B, A, Nat2N.id, nth_error_app2 by lia.
      rewrite Nat.sub_diag. reflexivity.
Qed.

Lemma grows_upcall b key t pos g g' i : get_upcall key t pos g = COk (g', i) -> gwf g ->
  grows b g g' /\ g_code g' = g_code g /\ g_instrs g' = g_instrs g /\ g_constants g' = g_constants g /\
  g_fixups g' = g_fixups g /\
  (forall ord, wf (g_upcalls g') ord -> nth_error ord (N.to_nat i) = Some key).
Proof.
  unfold get_upcall. intros H (W1 & W2 & (o & W3)).
  destruct (id_get ustr_eqb (g_upcalls g) key) as [[x j]|] eqn:G.
  - inv_ok. split; [apply grows_refl|]. repeat split. intros ord W.
    exact (wf_get_pos ustr_eqb ueqb ustr_dec _ _ _ _ _ W G).
  - destruct (id_insert ustr_eqb u16_ids (g_upcalls g) key t) as [[m [p j]]|] eqn:I; [|discriminate].
    inv_ok. split; [|repeat split].
    + constructor; cbn [g_code g_instrs g_constants g_upcalls g_fixups g_labels next_pc]; auto.
      * intros ord W. exists []. rewrite app_nil_r. assumption.
      * intros ord W.
        destruct (intern_grows _ ustr_dec ueqb _ _ _ _ _ _ _ _ W G I) as [_ W'].
        exists [key]. assumption.
      * exists []. split; [reflexivity|constructor].
    + cbn [g_upcalls]. intros ord W.
      destruct (intern_grows _ ustr_dec ueqb _ _ _ _ _ _ _ _ W3 G I) as [-> (A & _)].
      destruct W as (B & _). rewrite <- B, A, Nat2N.id, nth_error_app2 by lia.
      rewrite Nat.sub_diag. reflexivity.
Qed.

Lemma next_pc_eq g g' : g_code g' = g_code g -> next_pc g' = next_pc g.
Proof. unfold next_pc. congruence. Qed.

Lemma grows_value b r d pos g g' : emit_value r d pos g = COk g' -> gwf g -> b <= next_pc g ->
  grows b g g' /\ next_pc g' = S (next_pc g).
Proof.
  intros H W L.
  assert (X : forall f c, bind (get_constant c pos g) (fun p => let '(g, i) := p in COk (emit (f i) pos g)) = COk g' ->
    grows b g g' /\ next_pc g' = S (next_pc g)).
  { intros f c Q. inv_ok. destruct (grows_constant b _ _ _ _ _ E W) as (G & C & _).
    rewrite emit_pc, (next_pc_eq _ _ C). split; [|reflexivity].
    eapply grows_trans; [exact G|]. apply grows_emit.
    - eapply grows_gwf; eassumption.
    - rewrite (next_pc_eq _ _ C). assumption. }
  destruct d as [x| | |]; cbn [emit_value] in H.
  - inv_ok. split; [apply grows_emit; assumption|apply emit_pc].
  - eapply X; eassumption.
  - destruct ((0 <=? z) && (z <=? 65535))%Z; [|eapply X; eassumption].
    inv_ok. split; [apply grows_emit; assumption|apply emit_pc].
  - eapply X; eassumption.
Qed.

(** A tactic for composing steps of growth. *)
Ltac grow_with := first
  [ apply grows_refl
  | apply grows_patch; lia
  | apply grows_mark; lia
  | apply grows_set_args; lia ].
