(** Every backward jump that the compiler emits leaves from, or arrives at, the beginning of a
    statement. *)
From Verif Require Import Base Bytecode_Model Bytecode_Spec Bytecode_Proofs Mem_Model Vm_Model Ids_Model
  Ast_Model Syms_Model Syms_Proofs Codegen_Model Codegen_Proofs Exprs_Model Exprs_Proofs Top_Model
  Top_Proofs Range_Proofs Steady_Proofs Vm_Spec Incr_Spec Incr_Proofs Program_Proofs Marks_Spec.

(** * Jumps and marks *)

Definition goes (i : instr) (t : nat) : Prop :=
  match i with IJump n | IJumpIfFalse _ n => N.to_nat n = t | _ => False end.
Definition is_marked (g : codegen) (a : nat) : Prop :=
  exists m, nth_error (g_instrs g) a = Some m /\ m_stmt_start m = true.


(** * The invariant *)

(** [E] are the addresses that are still to be marked. *)
Record gj (E : nat -> Prop) (g : codegen) : Prop := mkGj {
  gj_len : length (g_instrs g) = length (g_code g);
  gj_jump : forall pc i t, nth_error (g_code g) pc = Some i -> goes i t -> t <= pc ->
    is_marked g t \/ is_marked g pc \/ E t;
  gj_goto : forall a l, In (a, FxGoto l) (g_fixups g) -> a < next_pc g /\ (is_marked g a \/ E a)
}.
Definition gle (g g' : codegen) : Prop :=
  next_pc g <= next_pc g' /\ forall a, is_marked g a -> is_marked g' a.

Lemma gle_refl g : gle g g.
Proof. split; auto. Qed.
Lemma gle_trans a b c : gle a b -> gle b c -> gle a c.
Proof. intros [A B] [C D]. split; [lia|auto]. Qed.

(** Changing the code and the metadata by hand. *)
Lemma gj_weaken (E E' : nat -> Prop) g : gj E g -> (forall t, t < next_pc g -> E t -> is_marked g t \/ E' t) -> gj E' g.
Proof.
  intros [L J G] H. split; [exact L| |].
  - intros pc i t A B C. destruct (J _ _ _ A B C) as [X|[X|X]]; auto.
    assert (t < next_pc g). { unfold next_pc. apply Nat.le_lt_trans with pc; [exact C|]. apply nth_error_Some. congruence. }
    destruct (H t H0 X); auto.
  - intros a l I. destruct (G a l I) as [A [B|B]]; auto.
Qed.

Lemma marked_emit i pos g a : is_marked g a -> is_marked (emit i pos g) a.
Proof.
  intros (m & A & B). exists m. split; [|exact B]. cbn [emit with_code g_instrs].
  rewrite nth_error_app1; [exact A|]. apply nth_error_Some. congruence.
Qed.
Lemma marked_mark b g a : is_marked g a -> is_marked (mark_statement_start b g) a.
Proof.
  intros (m & A & B). unfold is_marked, mark_statement_start. cbn [with_code g_instrs].
  destruct (nth_error (g_instrs g) b) as [m'|] eqn:N; [|exists m; auto].
  destruct (Nat.eq_dec b a) as [->|D].
  - exists (mkMeta (m_pos m') true (m_args m')). split; [|reflexivity]. apply upd_nth_same. apply nth_error_Some. congruence.
  - exists m. rewrite upd_nth_other; auto.
Qed.
Lemma mark_marks b g : b < length (g_instrs g) -> is_marked (mark_statement_start b g) b.
Proof.
  intros L. apply nth_error_Some in L. unfold is_marked, mark_statement_start. cbn [with_code g_instrs].
  destruct (nth_error (g_instrs g) b) as [m'|] eqn:N; [|congruence].
  exists (mkMeta (m_pos m') true (m_args m')). split; [|reflexivity]. apply upd_nth_same. apply nth_error_Some. congruence.
Qed.
Lemma marked_args b l g a : is_marked g a -> is_marked (set_arg_linecols b l g) a.
Proof.
  intros (m & A & B). unfold is_marked, set_arg_linecols. cbn [with_code g_instrs].
  destruct (nth_error (g_instrs g) b) as [m'|] eqn:N; [|exists m; auto].
  destruct (Nat.eq_dec b a) as [->|D].
  - exists (mkMeta (m_pos m') (m_stmt_start m') l). split; [|cbn; congruence]. apply upd_nth_same. apply nth_error_Some. congruence.
  - exists m. rewrite upd_nth_other; auto.
Qed.

Lemma pc_emit i pos g : next_pc (emit i pos g) = S (next_pc g).
Proof. unfold next_pc. cbn [emit with_code g_code]. rewrite app_length. cbn [length]. lia. Qed.

Lemma gle_emit i pos g : gle g (emit i pos g).
Proof. split; [rewrite pc_emit; lia|apply marked_emit]. Qed.

Lemma gj_emit E i pos g : gj E g -> (forall t, goes i t -> t <= next_pc g -> is_marked g t \/ E t) -> gj E (emit i pos g).
Proof.
  intros [L J G] H. split.
  - cbn [emit with_code g_instrs g_code]. rewrite !app_length, L. reflexivity.
  - intros pc j t A B C. cbn [emit with_code g_code] in A. destruct (Nat.lt_ge_cases pc (length (g_code g))) as [X|X].
    + rewrite nth_error_app1 in A by exact X. destruct (J _ _ _ A B C) as [Y|[Y|Y]]; auto using marked_emit.
    + rewrite nth_error_app2 in A by exact X. destruct (pc - length (g_code g)) as [|k] eqn:K.
      * cbn [nth_error] in A. injection A as <-. destruct (H t B) as [Y|Y]; auto using marked_emit. unfold next_pc. lia.
      * cbn [nth_error] in A. destruct k; discriminate A.
  - intros a l I. destruct (G a l I) as [A [B|B]]; (split; [rewrite pc_emit; lia|auto using marked_emit]).
Qed.
Lemma gj_emit_quiet E i pos g : gj E g -> quiet i -> gj E (emit i pos g).
Proof. intros G Q. apply gj_emit; [exact G|]. intros t H. destruct i; contradiction. Qed.

Lemma gj_patch E a i g : gj E g -> (forall t, goes i t -> t <= a -> is_marked g t \/ is_marked g a \/ E t) -> gj E (patch a i g).
Proof.
  intros [L J G] H. split.
  - cbn [patch with_code g_instrs g_code]. rewrite upd_length. exact L.
  - intros pc j t A B C. cbn [patch with_code g_code] in A. change (is_marked (patch a i g)) with (is_marked g).
    destruct (Nat.eq_dec a pc) as [->|D].
    + destruct (nth_error (g_code g) pc) as [j'|] eqn:N.
      * rewrite upd_nth_same in A by (apply nth_error_Some; congruence). injection A as <-. apply H; assumption.
      * exfalso. assert (pc < length (upd (g_code g) pc i)) by (apply nth_error_Some; congruence).
        rewrite upd_length in H0. apply nth_error_Some in H0. congruence.
    + rewrite upd_nth_other in A by exact D. apply (J _ _ _ A B C).
  - intros b l I. destruct (G b l I) as [A B]. split; [|exact B]. unfold next_pc. cbn [patch with_code g_code].
    rewrite upd_length. exact A.
Qed.
Lemma gle_patch a i g : gle g (patch a i g).
Proof. split; [|auto]. unfold next_pc. cbn [patch with_code g_code]. rewrite upd_length. lia. Qed.

Lemma gj_marks E g g' : gj E g -> g_code g' = g_code g -> g_fixups g' = g_fixups g ->
  length (g_instrs g') = length (g_instrs g) -> (forall a, is_marked g a -> is_marked g' a) -> gj E g'.
Proof.
  intros [L J G] A B C D. split.
  - congruence.
  - intros pc i t X Y Z. rewrite A in X. destruct (J _ _ _ X Y Z) as [U|[U|U]]; auto.
  - intros a l I. rewrite B in I. destruct (G _ _ I) as [U [V|V]]; unfold next_pc in *; rewrite A; auto.
Qed.
Lemma gj_mark E b g : gj E g -> gj E (mark_statement_start b g).
Proof.
  intros G. eapply gj_marks; [exact G|reflexivity|reflexivity| |apply marked_mark].
  unfold mark_statement_start. cbn [with_code g_instrs]. destruct (nth_error _ _); [apply upd_length|reflexivity].
Qed.
Lemma gle_mark b g : gle g (mark_statement_start b g).
Proof. split; [apply le_n|apply marked_mark]. Qed.

Lemma gj_fixup E a f g : gj E g -> (forall l, f = FxGoto l -> a < next_pc g /\ (is_marked g a \/ E a)) -> gj E (add_fixup a f g).
Proof.
  intros [L J G] H. split; [exact L|exact J|]. intros b l [X|X].
  - assert (a = b) by congruence. subst b. apply (H l). congruence.
  - apply (G _ _ X).
Qed.

Definition kj (E : nat -> Prop) (g0 g : codegen) : Prop := gj E g /\ gle g0 g.
Lemma kj_emit E g0 i pos g : quiet i -> kj E g0 g -> kj E g0 (emit i pos g).
Proof. intros Q [A B]. split; [apply gj_emit_quiet; assumption|]. eapply gle_trans; [exact B|apply gle_emit]. Qed.
Lemma kj_args E g0 a l g : kj E g0 g -> kj E g0 (set_arg_linecols a l g).
Proof.
  intros [A B]. split.
  - eapply gj_marks; [exact A|reflexivity|reflexivity| |apply marked_args].
    unfold set_arg_linecols. cbn [with_code g_instrs]. destruct (nth_error _ _); [apply upd_length|reflexivity].
  - eapply gle_trans; [exact B|]. split; [apply le_n|apply marked_args].
Qed.
Lemma kj_call E g0 a r k g : kj E g0 g -> kj E g0 (add_fixup a (FxCall r k) g).
Proof. intros [A B]. split; [|exact B]. apply gj_fixup; [exact A|discriminate]. Qed.
Lemma kj_steady E g0 : steady (kj E g0).
Proof.
  split.
  - intros i pos g Q H. apply kj_emit; assumption.
  - intros g m [[L J G] B]. split; [split; assumption|exact B].
  - intros g m [[L J G] B]. split; [split; assumption|exact B].
  - intros r k pos g H. apply kj_call, kj_emit; [exact I|exact H].
  - intros r k pos l g H. apply kj_call, kj_args, kj_emit; [exact I|exact H].
  - intros a l g H. apply kj_args, H.
Qed.

(** * Statements *)

Definition under (n : nat) (l : list (nat * linecol)) : Prop := Forall (fun p => fst p < n) l.
Record ok (E : nat -> Prop) (x : sst) : Prop := mkOk {
  ok_gen : gj E (s_gen x);
  ok_do : Forall (under (s_pc x)) (t_do (fst x));
  ok_for : Forall (under (s_pc x)) (t_for (fst x));
  ok_exits : under (s_pc x) (t_exits (fst x))
}.
Definition sle (x x' : sst) : Prop := gle (s_gen x) (s_gen x').
Definition bj (body : block) : Prop := forall E x (Q : _ -> Prop), ok E x ->
  (forall x', ok E x' -> sle x x' -> Q x') -> wp (body x) Q.

Lemma under_le n m l : under n l -> n <= m -> under m l.
Proof. intros H L. eapply Forall_impl; [|exact H]. cbn. lia. Qed.
Lemma unders_le n m l : Forall (under n) l -> n <= m -> Forall (under m) l.
Proof. intros H L. eapply Forall_impl; [|exact H]. intros. eapply under_le; eassumption. Qed.

Lemma ok_same E x x' : ok E x -> gj E (s_gen x') -> sle x x' -> same_lists x x' -> ok E x'.
Proof.
  intros [A B C D] G [L _] (S1 & S2 & S3 & _). split; [exact G| | |].
  - rewrite S1. eapply unders_le; eassumption.
  - rewrite S2. eapply unders_le; eassumption.
  - rewrite S3. eapply under_le; eassumption.
Qed.

Lemma sle_refl x : sle x x.
Proof. apply gle_refl. Qed.
Lemma sle_trans x y z : sle x y -> sle y z -> sle x z.
Proof. apply gle_trans. Qed.

(** From statements that only append quiet instructions. *)
Lemma bj_steady body : (forall P, steady P -> bsteady P body) -> forall E x (Q : _ -> Prop), ok E x ->
  (forall x', ok E x' -> sle x x' -> same_lists x x' -> Q x') -> wp (body x) Q.
Proof.
  intros B E x Q O H. apply (B _ (kj_steady E (s_gen x))).
  - split; [apply O|apply gle_refl].
  - intros x' S [G L]. apply H; try assumption. eapply ok_same; eassumption.
Qed.
Lemma guard_bj e E x (Q : _ -> Prop) : ok E x ->
  (forall r x', ok E x' -> sle x x' -> same_lists x x' -> Q (r, x')) -> wp (guard_expr e x) Q.
Proof.
  intros O H. apply (guard_st _ (kj_steady E (s_gen x))).
  - split; [apply O|apply gle_refl].
  - intros r x' S [G L]. apply H; try assumption. eapply ok_same; eassumption.
Qed.

Lemma emit_ok E i pos x : ok E x -> (forall t, goes i t -> t <= s_pc x -> is_marked (s_gen x) t \/ E t) -> ok E (s_emit i pos x).
Proof.
  intros O H. eapply ok_same; [exact O| |apply gle_emit|repeat split]. apply gj_emit; [apply O|exact H].
Qed.
Lemma emit_quiet E i pos x : ok E x -> quiet i -> ok E (s_emit i pos x).
Proof. intros O H. apply emit_ok; [exact O|]. intros t G. destruct i; contradiction. Qed.
Lemma emit_sle i pos x : sle x (s_emit i pos x).
Proof. apply gle_emit. Qed.
Lemma emit_pc i pos x : s_pc (s_emit i pos x) = S (s_pc x).
Proof. apply pc_emit. Qed.
Lemma patch_ok E a i x : ok E x -> (forall t, goes i t -> a < t) -> ok E (s_patch a i x).
Proof.
  intros O H. eapply ok_same; [exact O| |apply gle_patch|repeat split]. apply gj_patch; [apply O|].
  intros t G L. apply H in G. lia.
Qed.
Lemma patch_sle a i x : sle x (s_patch a i x).
Proof. apply gle_patch. Qed.
Lemma patch_spc a i x : s_pc (s_patch a i x) = s_pc x.
Proof. unfold s_pc, next_pc. cbn. apply upd_length. Qed.

Lemma target_j a pos (Q : _ -> Prop) : Q (N.of_nat a) -> wp (target_at a pos) Q.
Proof. intros H. unfold target_at, make_target. destruct (_ <? _)%N; cbn [wp]; auto. Qed.

Lemma jump_ok E a pos x : ok E x -> is_marked (s_gen x) a \/ E a -> ok E (s_emit (IJump (N.of_nat a)) pos x).
Proof. intros O H. apply emit_ok; [exact O|]. cbn [goes]. intros t <- _. rewrite Nat2N.id. exact H. Qed.
Lemma jumpif_ok E r a pos x : ok E x -> is_marked (s_gen x) a \/ E a -> ok E (s_emit (IJumpIfFalse r (N.of_nat a)) pos x).
Proof. intros O H. apply emit_ok; [exact O|]. cbn [goes]. intros t <- _. rewrite Nat2N.id. exact H. Qed.
Lemma fwd_ok E a b x : ok E x -> a < b -> ok E (s_patch a (IJump (N.of_nat b)) x).
Proof. intros O H. apply patch_ok; [exact O|]. cbn [goes]. intros t <-. rewrite Nat2N.id. exact H. Qed.
Lemma fwdif_ok E a r b x : ok E x -> a < b -> ok E (s_patch a (IJumpIfFalse r (N.of_nat b)) x).
Proof. intros O H. apply patch_ok; [exact O|]. cbn [goes]. intros t <-. rewrite Nat2N.id. exact H. Qed.

Lemma patch_jumps_bj l target : forall E x (Q : _ -> Prop), ok E x -> under target l ->
  (forall x', ok E x' -> sle x x' -> same_lists x x' -> s_pc x' = s_pc x -> Q x') -> wp (patch_jumps l target x) Q.
Proof.
  induction l as [|[a p] l IH]; intros E x Q O U H; cbn [patch_jumps].
  - cbn [wp]. apply H; [exact O|apply sle_refl|repeat split|reflexivity].
  - inversion U as [|? ? Ua U']; subst. cbn [fst] in Ua. apply wp_bind, target_j. apply (IH E); [apply fwd_ok; assumption|exact U'|].
    intros x' O' L S PC. apply H; [exact O'| |exact S|].
    + eapply sle_trans; [|exact L]. apply patch_sle.
    + rewrite PC. apply patch_spc.
Qed.

Lemma sle_pc x y : sle x y -> s_pc x <= s_pc y.
Proof. intros [A _]. exact A. Qed.
Lemma sle_mark x y a : sle x y -> is_marked (s_gen x) a -> is_marked (s_gen y) a.
Proof. intros [_ A]. apply A. Qed.

Ltac pcs := repeat match goal with
  | H : sle _ _ |- _ => apply sle_pc in H
  end; repeat rewrite ?emit_pc, ?patch_spc in *; try lia.
Ltac slet := repeat first [ assumption | apply sle_refl
  | eapply sle_trans; [|apply patch_sle] | eapply sle_trans; [|apply emit_sle]
  | match goal with H : sle _ ?y |- sle _ ?y => eapply sle_trans; [|exact H]; clear H end ].

(** Statements that jump back to where they begin. *)
Definition bj1 (body : block) : Prop := forall (E : nat -> Prop) x (Q : _ -> Prop), ok E x -> E (s_pc x) ->
  (forall x', ok E x' -> sle x x' -> Q x') -> wp (body x) Q.
Lemma bj_bj1 body : bj body -> bj1 body.
Proof. intros B E x Q O _ H. apply (B E); assumption. Qed.

Lemma while_bj e body : bj body -> bj1 (compile_while e body).
Proof.
  intros B E x Q O S H. unfold compile_while. cbn zeta. apply wp_bind, (guard_bj e E); [exact O|]. intros r x1 O1 L1 _.
  cbn beta iota. apply wp_bind, (B E); [apply emit_quiet; [exact O1|exact I]|]. intros x2 O2 L2.
  apply wp_bind, target_j. apply wp_bind, target_j. cbn [wp]. apply H.
  - apply fwdif_ok; [apply jump_ok; [exact O2|auto]|]. pcs.
  - slet.
Qed.

Lemma do_bj g body : bj body -> bj1 (compile_do g body).
Proof.
  intros B E x Q O S H. unfold compile_do. cbn zeta. set (x0 := (set_do _ _, _)).
  assert (O0 : ok E x0). { destruct O as [A1 A2 A3 A4]. split; try assumption. constructor; [constructor|exact A2]. }
  assert (L0 : sle x x0) by exact (gle_refl (s_gen x)). assert (S0 : E (s_pc x0)) by exact S.
  apply wp_bind. apply wp_mono with (P := fun y => ok E y /\ sle x0 y).
  - destruct g as [|e|e|e|e].
    + apply wp_bind, (B E); [exact O0|]. intros x1 O1 L1. apply wp_bind, target_j. cbn [wp]. split; [apply jump_ok; auto|slet].
    + apply wp_bind, (guard_bj e E); [exact O0|]. intros r x1 O1 L1 _. cbn beta iota zeta.
      apply wp_bind, target_j. apply wp_bind, (B E).
      { apply fwdif_ok; [apply emit_quiet; [apply emit_quiet; [exact O1|exact I]|exact I]|]. pcs. }
      intros x2 O2 L2. apply wp_bind, target_j. apply wp_bind, target_j. cbn [wp]. split.
      * apply fwd_ok; [apply jump_ok; auto|]. pcs.
      * slet.
    + apply (while_bj e body B E); [exact O0|exact S0|]. auto.
    + apply wp_bind, (B E); [exact O0|]. intros x1 O1 L1. apply wp_bind, (guard_bj e E); [exact O1|]. intros r x2 O2 L2 _.
      cbn beta iota. apply wp_bind, target_j. cbn [wp]. split; [apply jumpif_ok; auto|slet].
    + apply wp_bind, (B E); [exact O0|]. intros x1 O1 L1. apply wp_bind, (guard_bj e E); [exact O1|]. intros r x2 O2 L2 _.
      cbn beta iota zeta. apply wp_bind, target_j. apply wp_bind, target_j. cbn [wp]. split.
      * apply fwdif_ok; [apply jump_ok; [apply emit_quiet; [exact O2|exact I]|auto]|]. pcs.
      * slet.
  - intros y [O1 L1]. destruct (t_do (fst y)) as [|exits rest] eqn:T; [exact I|].
    pose proof O1 as [A1 A2 A3 A4]. rewrite T in A2. inversion A2 as [|? ? U A2']; subst.
    apply (patch_jumps_bj exits (s_pc y) E).
    + split; assumption.
    + exact U.
    + intros x' O' L' _ _. apply H; [exact O'|]. eapply sle_trans; [exact L1|exact L'].
Qed.

Lemma for_iterator_bj i p d E x (Q : _ -> Prop) : ok E x ->
  (forall x', ok E x' -> sle x x' -> Q x') -> wp (for_iterator i p d x) Q.
Proof.
  intros O H. unfold for_iterator. repeat wstep; try (apply H; [exact O|apply sle_refl]).
  apply H; [|exact (gle_refl (s_gen x))]. destruct O. split; assumption.
Qed.

Lemma mark_ok E a x : ok E x -> ok E (set_gen (mark_statement_start a (s_gen x)) (fst x), snd x).
Proof. intros O. eapply ok_same; [exact O|apply gj_mark, O|apply gle_mark|repeat split]. Qed.
Lemma mark_sle a x : sle x (set_gen (mark_statement_start a (s_gen x)) (fst x), snd x).
Proof. apply gle_mark. Qed.

Lemma for_bj i p d s e n body : bj body -> bj (compile_for i p d s e n body).
Proof.
  intros B E x Q O H. unfold compile_for. cbn zeta. apply wp_bind, (for_iterator_bj i p d E); [exact O|]. intros x1 O1 L1.
  apply wp_bind, (bj_steady _ (fun P K => s_assignment_st P K i p s) E); [exact O1|]. intros x2 O2 L2 _.
  apply wp_bind, (guard_bj e E); [exact O2|]. intros r x3 O3 L3 _. cbn beta iota.
  set (x4 := s_emit INop _ x3). assert (O4 : ok E x4) by (apply emit_quiet; [exact O3|exact I]).
  assert (L4 : sle x3 x4) by apply emit_sle.
  set (x5 := (set_gen (mark_statement_start (s_pc x2) (s_gen x4)) (fst x4), snd x4)).
  assert (O5 : ok E x5) by (apply mark_ok, O4). assert (L5 : sle x4 x5) by apply mark_sle.
  assert (M5 : is_marked (s_gen x5) (s_pc x2)).
  { apply mark_marks. rewrite (gj_len E _ (ok_gen E _ O4)). change (s_pc x2 < s_pc x4). unfold x4. pcs. }
  set (x6 := (set_for _ _, _)).
  assert (O6 : ok E x6). { destruct O5 as [A1 A2 A3 A4]. split; try assumption. constructor; [constructor|exact A3]. }
  assert (L6 : sle x5 x6) by exact (gle_refl (s_gen x5)).
  apply wp_bind, (B E); [exact O6|]. intros x7 O7 L7.
  apply wp_bind, (bj_steady _ (fun P K => s_assignment_st P K i p n) E); [exact O7|]. intros x8 O8 L8 _.
  apply wp_bind, target_j. apply wp_bind, target_j. set (y := s_patch _ _ _).
  assert (M8 : is_marked (s_gen x8) (s_pc x2)).
  { eapply sle_mark; [exact L8|]. eapply sle_mark; [exact L7|]. exact M5. }
  assert (P4 : s_pc x4 = S (s_pc x3)) by apply emit_pc.
  assert (Oy : ok E y).
  { apply fwdif_ok; [apply jump_ok; [exact O8|auto]|]. clear M5 M8. pcs. }
  assert (Ly : sle x y). { unfold y. slet. }
  destruct (t_for (fst y)) as [|exits rest] eqn:T; [exact I|].
  pose proof Oy as [A1 A2 A3 A4]. rewrite T in A3. inversion A3 as [|? ? U A3']; subst.
  replace (s_pc (s_emit (IJump (N.of_nat (s_pc x2))) (start_pos e) x8)) with (s_pc y) by (unfold y; apply patch_spc).
  apply (patch_jumps_bj exits (s_pc y) E); [split; assumption|exact U|].
  intros x' O' L' _ _. apply H; [exact O'|]. eapply sle_trans; [exact Ly|exact L'].
Qed.

Lemma branches_bj bs : forall E ends x (Q : _ -> Prop), Forall (fun b => bj (snd b)) bs -> ok E x ->
  Forall (fun a => a < s_pc x) ends ->
  (forall ends' x', ok E x' -> sle x x' -> Forall (fun a => a < s_pc x') ends' -> Q (ends', x')) ->
  wp (compile_branches bs ends x) Q.
Proof.
  induction bs as [|[e body] bs IH]; intros E ends x Q F O U H; cbn [compile_branches]; cbn zeta.
  - cbn [wp]. apply H; [exact O|apply sle_refl|exact U].
  - inversion F as [|? ? B F']; subst. cbn [snd] in B. apply wp_bind, (guard_bj e E); [exact O|]. intros r x1 O1 L1 _.
    cbn beta iota. apply wp_bind, (B E); [apply emit_quiet; [exact O1|exact I]|]. intros x2 O2 L2.
    destruct bs as [|b bs'].
    + apply wp_bind, target_j. apply (IH E); [exact F'| | |].
      * apply fwdif_ok; [exact O2|]. pcs.
      * rewrite patch_spc. eapply Forall_impl; [|exact U]. cbn. intros a A. pcs.
      * intros ends' x' O' L' U'. apply H; [exact O'|slet|exact U'].
    + apply wp_bind, target_j. apply (IH E); [exact F'| | |].
      * apply fwdif_ok; [apply emit_quiet; [exact O2|exact I]|]. pcs.
      * rewrite patch_spc, emit_pc. apply Forall_app. split.
        -- eapply Forall_impl; [|exact U]. cbn. intros a A. pcs.
        -- repeat constructor.
      * intros ends' x' O' L' U'. apply H; [exact O'|slet|exact U'].
Qed.
Lemma if_bj bs : Forall (fun b => bj (snd b)) bs -> bj (compile_if bs).
Proof.
  intros F E x Q O H. unfold compile_if. apply wp_bind, (branches_bj bs E); [exact F|exact O|constructor|]. intros ends x1 O1 L1 U.
  cbn beta iota. apply (patch_jumps_bj _ _ E); [exact O1| |].
  - clear -U. induction U; constructor; assumption.
  - intros x' O' L' _ _. apply H; [exact O'|slet].
Qed.

(** SELECT. *)
Lemma case_guard_bj l tr tt_ g E st (Q : _ -> Prop) : gj E (fst st) ->
  (forall c p st', gj E (fst st') -> gle (fst st) (fst st') -> Q (c, p, st')) ->
  wp (compile_case_guard l tr tt_ g st) Q.
Proof.
  intros O H. apply (case_guard_st _ (kj_steady E (fst st))).
  - split; [exact O|apply gle_refl].
  - intros c p st' [A B]. apply H; assumption.
Qed.
Lemma gj_fwdif E a r b g : gj E g -> a < b -> gj E (patch a (IJumpIfFalse r (N.of_nat b)) g).
Proof. intros O H. apply gj_patch; [exact O|]. cbn [goes]. intros t <-. rewrite Nat2N.id. lia. Qed.
Lemma gj_fwd E a b g : gj E g -> a < b -> gj E (patch a (IJump (N.of_nat b)) g).
Proof. intros O H. apply gj_patch; [exact O|]. cbn [goes]. intros t <-. rewrite Nat2N.id. lia. Qed.
Lemma pc_patch a i g : next_pc (patch a i g) = next_pc g.
Proof. unfold next_pc. cbn. apply upd_length. Qed.

Lemma case_guards_bj l tr tt_ gs : forall E jumps st (Q : _ -> Prop), gj E (fst st) ->
  under (next_pc (fst st)) jumps ->
  (forall j st', gj E (fst st') -> gle (fst st) (fst st') -> under (next_pc (fst st')) j -> Q (j, st')) ->
  wp (case_guards l tr tt_ gs jumps st) Q.
Proof.
  induction gs as [|g gs IH]; intros E jumps st Q O U H; cbn [case_guards]; cbn zeta.
  - cbn [wp]. apply H; [exact O|apply gle_refl|exact U].
  - apply wp_bind, (case_guard_bj l tr tt_ g E); [exact O|]. intros c p st1 O1 L1. cbn beta iota.
    apply wp_bind, target_j. unfold e_emit, e_patch. cbn [fst].
    apply (IH E).
    + cbn [fst]. apply gj_fwdif; [|rewrite !pc_emit; lia]. apply gj_emit_quiet; [|exact I]. apply gj_emit_quiet; [exact O1|exact I].
    + cbn [fst]. rewrite pc_patch, !pc_emit. apply Forall_app. split.
      * eapply under_le; [exact U|]. destruct L1. lia.
      * constructor; [cbn [fst]; lia|constructor].
    + cbn [fst]. intros j st' O' L' U'. apply H; [exact O'| |exact U'].
      eapply gle_trans; [exact L1|]. eapply gle_trans; [|exact L']. eapply gle_trans; [apply gle_emit|].
      eapply gle_trans; [apply gle_emit|apply gle_patch].
Qed.

Definition next_under (n : nat) (o : option (nat * linecol)) : Prop :=
  match o with Some (a, _) => a < n | None => True end.
Lemma patch_next_bj n E st (Q : _ -> Prop) : gj E (fst st) -> next_under (next_pc (fst st)) n ->
  (forall st', gj E (fst st') -> gle (fst st) (fst st') -> next_pc (fst st') = next_pc (fst st) -> Q st') ->
  wp (patch_next n (next_pc (fst st)) st) Q.
Proof.
  intros O U H. unfold patch_next. destruct n as [[a p]|].
  - apply wp_bind, target_j. cbn [wp]. apply H; unfold e_patch; cbn [fst].
    + apply gj_fwd; assumption.
    + apply gle_patch.
    + apply pc_patch.
  - cbn [wp]. apply H; [exact O|apply gle_refl|reflexivity].
Qed.

Definition pend_ok (n : nat) (p : block * list (nat * linecol) * bool) : Prop :=
  bj (fst (fst p)) /\ under n (snd (fst p)).
Lemma pend_le n m l : Forall (pend_ok n) l -> n <= m -> Forall (pend_ok m) l.
Proof. intros H L. eapply Forall_impl; [|exact H]. intros p [A B]. split; [exact A|]. eapply under_le; eassumption. Qed.

Lemma dispatch_bj l tr tt_ ep cs : forall E next pend st (Q : _ -> Prop), gj E (fst st) ->
  Forall (fun c => bj (snd c)) cs -> Forall (pend_ok (next_pc (fst st))) pend -> next_under (next_pc (fst st)) next ->
  (forall pend' n st', gj E (fst st') -> gle (fst st) (fst st') -> Forall (pend_ok (next_pc (fst st'))) pend' ->
     next_under (next_pc (fst st')) n -> Q (pend', n, st')) ->
  wp (select_dispatch l tr tt_ ep cs next pend st) Q.
Proof.
  induction cs as [|[gs body] cs IH]; intros E next pend st Q O F P N H; cbn [select_dispatch]; cbn zeta.
  - cbn [wp]. apply H; try assumption. apply gle_refl.
  - inversion F as [|? ? B F']; subst. cbn [snd] in B. apply wp_bind, (patch_next_bj next E); [exact O|exact N|].
    intros st1 O1 L1 P1. destruct gs as [|g gs].
    + apply (IH E).
      * unfold e_emit. cbn [fst]. apply gj_emit_quiet; [exact O1|exact I].
      * exact F'.
      * unfold e_emit. cbn [fst]. rewrite pc_emit. apply Forall_app. split.
        -- eapply pend_le; [exact P|lia].
        -- constructor; [|constructor]. split; [exact B|]. cbn [fst snd]. constructor; [cbn [fst]; lia|constructor].
      * exact I.
      * unfold e_emit. cbn [fst]. intros pend' n st' O' L' P' N'. apply H; try assumption.
        eapply gle_trans; [exact L1|]. eapply gle_trans; [apply gle_emit|exact L'].
    + apply wp_bind, (case_guards_bj l tr tt_ (g :: gs) E); [exact O1|constructor|]. intros j st2 O2 L2 U2. cbn beta iota.
      apply (IH E).
      * unfold e_emit. cbn [fst]. apply gj_emit_quiet; [exact O2|exact I].
      * exact F'.
      * unfold e_emit. cbn [fst]. rewrite pc_emit. apply Forall_app. split.
        -- eapply pend_le; [exact P|]. destruct L2. lia.
        -- constructor; [|constructor]. split; [exact B|]. cbn [fst snd]. eapply under_le; [exact U2|lia].
      * unfold e_emit. cbn [fst next_under]. rewrite pc_emit. lia.
      * unfold e_emit. cbn [fst]. intros pend' n st' O' L' P' N'. apply H; try assumption.
        eapply gle_trans; [exact L1|]. eapply gle_trans; [exact L2|]. eapply gle_trans; [apply gle_emit|exact L'].
Qed.

Lemma bodies_bj ep pend : forall E ends x (Q : _ -> Prop), ok E x -> Forall (pend_ok (s_pc x)) pend ->
  Forall (fun a => a < s_pc x) ends ->
  (forall e x', ok E x' -> sle x x' -> Forall (fun a => a < s_pc x') e -> Q (e, x')) ->
  wp (select_bodies ep pend ends x) Q.
Proof.
  induction pend as [|[[body jumps] hn] pend IH]; intros E ends x Q O F U H; cbn [select_bodies].
  - cbn [wp]. apply H; [exact O|apply sle_refl|exact U].
  - inversion F as [|? ? [B J] F']; subst. cbn [fst snd] in B, J. apply wp_bind, (patch_jumps_bj jumps (s_pc x) E); [exact O|exact J|].
    intros x1 O1 L1 _ P1. apply wp_bind, (B E); [exact O1|]. intros x2 O2 L2. pose proof (sle_pc _ _ L2) as P2. destruct hn.
    + apply (IH E).
      * apply emit_quiet; [exact O2|exact I].
      * rewrite emit_pc. eapply pend_le; [exact F'|lia].
      * rewrite emit_pc. apply Forall_app. split; [eapply Forall_impl; [|exact U]; cbn; intros; lia|constructor; [lia|constructor]].
      * intros e x' O' L' U'. apply H; [exact O'|slet|exact U'].
    + apply (IH E).
      * exact O2.
      * eapply pend_le; [exact F'|lia].
      * eapply Forall_impl; [|exact U]. cbn. intros; lia.
      * intros e x' O' L' U'. apply H; [exact O'|slet|exact U'].
Qed.
Lemma fold_patch_bj l t : forall E x, ok E x -> Forall (fun a => a < t) l ->
  ok E (fold_left (fun x a => s_patch a (IJump (N.of_nat t)) x) l x) /\
  sle x (fold_left (fun x a => s_patch a (IJump (N.of_nat t)) x) l x).
Proof.
  induction l as [|a l IH]; intros E x O F; cbn [fold_left]; [split; [exact O|apply sle_refl]|].
  inversion F as [|? ? A F']; subst. destruct (IH E (s_patch a (IJump (N.of_nat t)) x)) as [X Y]; [apply fwd_ok; assumption|exact F'|].
  split; [exact X|]. eapply sle_trans; [apply patch_sle|exact Y].
Qed.

Lemma select_bj e cs ep : Forall (fun b => bj (snd b)) cs -> bj (compile_select e cs ep).
Proof.
  intros F E x Q O H. unfold compile_select. apply wp_bind. unfold of_syms.
  destruct (reserve_temp (snd x)) as [[tr l]|] eqn:R; [|exact I]. cbn [wp]. apply wp_bind.
  apply (compile_expr_st _ (kj_steady E (s_gen x))); [split; [apply O|apply gle_refl]|]. intros st1 t1 [O1 L1].
  cbn beta iota. apply wp_bind, (dispatch_bj l tr t1 ep cs E); [exact O1|exact F|constructor|exact I|].
  intros pend n st2 O2 L2 P2 N2. cbn beta iota zeta.
  set (x1 := (set_gen (fst st2) (fst x), _) : sst). assert (L : sle x x1) by (exact (gle_trans _ _ _ L1 L2)).
  assert (OX : ok E x1). { eapply ok_same; [exact O|exact O2|exact L|repeat split]. }
  set (x2 := s_emit INop ep x1). assert (OX2 : ok E x2) by (apply emit_quiet; [exact OX|exact I]).
  assert (LX2 : sle x1 x2) by apply emit_sle. assert (PX : s_pc x2 = S (s_pc x1)) by apply emit_pc.
  apply wp_bind. apply wp_mono with (P := fun y => ok E y /\ sle x2 y /\ s_pc y = s_pc x2).
  - destruct n as [[a p]|].
    + apply wp_bind, target_j. cbn [wp]. split; [apply fwd_ok; [exact OX2|exact N2]|]. split; [apply patch_sle|apply patch_spc].
    + cbn [wp]. split; [exact OX2|]. split; [apply sle_refl|reflexivity].
  - intros y (OY & LY & PY). apply wp_bind, (bodies_bj ep pend E); [exact OY| |constructor|].
    + eapply pend_le; [exact P2|]. change (next_pc (fst st2)) with (s_pc x1). lia.
    + intros ends z OZ LZ UZ. cbn beta iota. apply wp_bind, target_j. cbn [wp]. pose proof (sle_pc _ _ LZ) as PZ.
      match goal with |- Q (fold_left _ _ ?w) => set (z' := w) end.
      assert (OZ' : ok E z') by (apply fwd_ok; [exact OZ|lia]).
      assert (LZ' : sle z z') by apply patch_sle.
      destruct (fold_patch_bj ends (s_pc z) E z' OZ' UZ) as [X Y].
      apply H; [exact X|]. slet.
Qed.

(** Functions and subroutines. *)
Lemma user_callable_bj n p ps body ep : bj body -> bj (compile_user_callable n p ps body ep).
Proof.
  intros B E x Q O H. unfold compile_user_callable. destruct (t_current (fst x)); [exact I|]. cbn zeta.
  set (x1 := (set_current _ _, _)).
  assert (O1 : ok E x1).
  { pose proof (emit_quiet E INop p x O I) as [A1 A2 A3 A4]. split; assumption. }
  assert (L1 : sle x x1) by exact (gle_emit INop p (s_gen x)). assert (P1 : s_pc x1 = S (s_pc x)) by apply (emit_pc INop p x).
  apply wp_bind, (bj_steady _ (fun P K => result_st P K n (symkey (vr_name n)) p) E); [exact O1|]. intros x2 O2 L2 _.
  apply wp_bind. destruct (define_params _ _ _) as [l1| |]; [|exact I|exact I]. cbn [wp].
  apply wp_bind, (B E). { destruct O2 as [A1 A2 A3 A4]. split; assumption. }
  intros x3 O3 L3. assert (L23 : sle x2 x3) by exact L3. clear L3. apply wp_bind.
  apply (patch_jumps_bj _ _ E).
  - apply emit_quiet; [exact O3|exact I].
  - apply O3.
  - intros x4 O4 L4 S4 P4. apply wp_bind, target_j. cbn [wp].
    pose proof (emit_pc IReturn ep x3) as P3. pose proof (emit_sle IReturn ep x3) as LE.
    assert (PC : s_pc x < s_pc x4). { pcs. }
    set (c := set_current None (set_exits [] (fst x4))).
    apply H.
    + destruct O4 as [A1 A2 A3 A4]. split.
      * unfold s_gen. cbn [fst t_gen set_gen]. apply gj_fwd; [|exact PC].
        destruct A1 as [J1 J2 J3]. split; assumption.
      * unfold s_pc, s_gen. cbn [fst t_gen set_gen t_do]. rewrite pc_patch. exact A2.
      * unfold s_pc, s_gen. cbn [fst t_gen set_gen t_do]. rewrite pc_patch. exact A3.
      * constructor.
    + apply sle_trans with x4; [slet|].
      unfold sle, s_gen. cbn [fst t_gen set_gen]. eapply gle_trans; [|apply gle_patch].
      split; [apply le_n|auto].
Qed.
Lemma callable_bj n p ps body ep : bj body -> bj (compile_callable n p ps body ep).
Proof.
  intros B E x Q O H. unfold compile_callable. apply wp_bind.
  destruct (declare_callable _ _ _ _) as [l| |]; [|exact I|exact I]. cbn [wp].
  destruct (existsb _ _); [exact I|]. apply wp_bind, (user_callable_bj n p ps body ep B E).
  - destruct O as [A1 A2 A3 A4]. split; assumption.
  - intros x1 O1 L1. cbn [wp]. apply H; [|exact L1]. destruct O1 as [A1 A2 A3 A4]. split; assumption.
Qed.

(** All statements. *)
Lemma stmts_bj l : Forall (fun s => bj (compile_stmt s)) l -> bj (compile_stmts l).
Proof.
  induction 1 as [|s l B _ IH]; intros E x Q O H; cbn [compile_stmts].
  - cbn [wp]. apply H; [exact O|apply sle_refl].
  - apply wp_bind, (B E); [exact O|]. intros x1 O1 L1. apply (IH E); [exact O1|]. intros x2 O2 L2. apply H; [exact O2|slet].
Qed.

Lemma ok_weaken (E E' : nat -> Prop) x : ok E x -> (forall t, t < s_pc x -> E t -> is_marked (s_gen x) t \/ E' t) -> ok E' x.
Proof. intros [A1 A2 A3 A4] H. split; try assumption. eapply gj_weaken; eassumption. Qed.

Lemma bj_marked s body : marks_start s = true -> bj1 body -> bj (fun x => let* x' := body x in COk (mark_from s (s_pc x) x')).
Proof.
  intros M B E x Q O H. apply wp_bind, (B (fun t => E t \/ t = s_pc x)).
  - eapply ok_weaken; [exact O|]. auto.
  - auto.
  - intros x' O' L'. cbn [wp]. unfold mark_from. rewrite M. cbn [andb].
    destruct (Nat.eqb_spec (s_pc x) (s_pc x')) as [D|D]; cbn [negb].
    + apply H; [|exact L']. eapply ok_weaken; [exact O'|]. intros t T [A|A]; [auto|lia].
    + set (y := (set_gen _ _, _) : sst). assert (OY : ok (fun t => E t \/ t = s_pc x) y) by (apply mark_ok, O').
      apply H.
      * eapply ok_weaken; [exact OY|]. intros t T [A| ->]; [auto|left].
        apply mark_marks. rewrite (gj_len _ _ (ok_gen _ _ O')). pose proof (sle_pc _ _ L'). change (s_pc x < s_pc x'). lia.
      * eapply sle_trans; [exact L'|apply mark_sle].
Qed.
Lemma bj_unmarked s body : marks_start s = false -> bj body -> bj (fun x => let* x' := body x in COk (mark_from s (s_pc x) x')).
Proof.
  intros M B E x Q O H. apply wp_bind, (B E); [exact O|]. intros x' O' L'. cbn [wp]. unfold mark_from. rewrite M. apply H; assumption.
Qed.
Lemma bj_eq body body' : (forall x, body' x = body x) -> bj body -> bj body'.
Proof. intros E B F x Q R H. rewrite E. apply (B F); assumption. Qed.

Lemma steady_bj1 body : (forall P, steady P -> bsteady P body) -> bj1 body.
Proof. intros B E x Q O _ H. apply (bj_steady body B E); auto. Qed.

Lemma same_gen_bj body : (forall x x', body x = COk x' -> (forall E, ok E x -> ok E x') /\ sle x x') -> bj body.
Proof.
  intros B E x Q O H. destruct (body x) as [x'| |] eqn:F; [|exact I|exact I]. destruct (B _ _ F) as [A C].
  cbn [wp]. apply H; auto.
Qed.

Lemma exit_do_ok E pos x y : compile_exit_do pos x = COk y -> ok E x -> ok E y.
Proof.
  unfold compile_exit_do. destruct (t_do (fst x)) as [|top rest] eqn:T; [discriminate|]. cbn zeta. intros X O.
  apply COk_inj in X. subst y. pose proof (emit_quiet E INop pos x O I) as [A1 A2 A3 A4]. split; try assumption.
  cbn [fst set_do t_do]. assert (R : t_do (fst (s_emit INop pos x)) = t_do (fst x)) by reflexivity. rewrite R, T in A2.
  inversion A2 as [|? ? U V]; subst. constructor; [|exact V]. apply Forall_app. split; [exact U|].
  constructor; [|constructor]. cbn [fst]. change (s_pc x < s_pc (s_emit INop pos x)). rewrite emit_pc. lia.
Qed.
Lemma exit_for_ok E pos x y : compile_exit_for pos x = COk y -> ok E x -> ok E y.
Proof.
  unfold compile_exit_for. destruct (t_for (fst x)) as [|top rest] eqn:T; [discriminate|]. cbn zeta. intros X O.
  apply COk_inj in X. subst y. pose proof (emit_quiet E INop pos x O I) as [A1 A2 A3 A4]. split; try assumption.
  cbn [fst set_for t_for]. assert (R : t_for (fst (s_emit INop pos x)) = t_for (fst x)) by reflexivity. rewrite R, T in A3.
  inversion A3 as [|? ? U V]; subst. constructor; [|exact V]. apply Forall_app. split; [exact U|].
  constructor; [|constructor]. cbn [fst]. change (s_pc x < s_pc (s_emit INop pos x)). rewrite emit_pc. lia.
Qed.
Lemma exit_callable_bj k e pos : bj (compile_exit_callable k e pos).
Proof.
  intros E x Q O H. unfold compile_exit_callable.
  match goal with |- wp (if ?b then _ else _) _ => destruct b end; [|exact I]. cbn zeta. cbn [wp]. apply H; [|exact (gle_emit INop pos (s_gen x))].
  pose proof (emit_quiet E INop pos x O I) as [A1 A2 A3 A4]. split; try assumption.
  cbn [fst set_exits t_exits]. apply Forall_app. split; [exact A4|].
  constructor; [|constructor]. cbn [fst]. change (s_pc x < s_pc (s_emit INop pos x)). rewrite emit_pc. lia.
Qed.
Lemma fixup_bj1 f pos : bj1 (fun x => COk (emit_fixup f pos x)).
Proof.
  intros E x Q O S H. cbn [wp]. unfold emit_fixup. apply H; [|exact (gle_emit INop pos (s_gen x))].
  pose proof (emit_quiet E INop pos x O I) as [A1 A2 A3 A4]. split; try assumption.
  apply gj_fixup; [exact A1|]. intros l _. change (s_pc x < s_pc (s_emit INop pos x) /\ (is_marked (s_gen (s_emit INop pos x)) (s_pc x) \/ E (s_pc x))).
  rewrite emit_pc. split; [lia|auto].
Qed.

Lemma stmt_bj s : bj (compile_stmt s).
Proof.
  induction s as [s Simple|n np ps body ep IH|g body IH|i ip d s0 e n body IH|bs IH|e cs ep IH|e body IH]
    using stmt_rect'; (eapply bj_eq; [intros x; apply compile_stmt_eq|]).
  2: apply (bj_unmarked (StCallable n np ps body ep)); [reflexivity|]; apply callable_bj, stmts_bj, IH.
  2: apply (bj_marked (StDo g body)); [reflexivity|]; apply do_bj, stmts_bj, IH.
  2: apply (bj_marked (StFor i ip d s0 e n body)); [reflexivity|]; apply bj_bj1, for_bj, stmts_bj, IH.
  2: { apply (bj_marked (StIf bs)); [reflexivity|]. apply bj_bj1, if_bj. clear -IH. induction IH; constructor; auto. apply stmts_bj. assumption. }
  2: { apply (bj_marked (StSelect e cs ep)); [reflexivity|]. apply bj_bj1, select_bj. clear -IH. induction IH; constructor; auto. apply stmts_bj. assumption. }
  2: apply (bj_marked (StWhile e body)); [reflexivity|]; apply while_bj, stmts_bj, IH.
  destruct s; try contradiction Simple.
  - apply (bj_marked (StArrayAssignment v vpos subs e)); [reflexivity|]. apply steady_bj1. intros P K. apply array_assignment_st, K.
  - apply (bj_marked (StAssignment v vpos e)); [reflexivity|]. apply steady_bj1. intros P K. apply s_assignment_st, K.
  - apply (bj_marked (StCall v vpos args)); [reflexivity|]. apply steady_bj1. intros P K. apply call_stmt_st, K.
  - apply (bj_marked (StData values)); [reflexivity|]. intros E x Q O _ H. unfold compile_data. apply wp_bind.
    destruct (data_values _); [|exact I|exact I]. cbn [wp]. apply H; [|exact (gle_refl (s_gen x))].
    destruct O as [A1 A2 A3 A4]. split; assumption.
  - apply (bj_unmarked (StDeclare name name_pos params)); [reflexivity|]. intros E x Q O H. unfold compile_declare.
    destruct (t_current _); [exact I|]. apply wp_bind.
    destruct (declare_callable _ _ _ _); [|exact I|exact I]. cbn [wp]. apply H; [|exact (gle_refl (s_gen x))].
    destruct O as [A1 A2 A3 A4]. split; assumption.
  - apply (bj_marked (StDim name name_pos shared t)); [reflexivity|]. apply steady_bj1. intros P K. apply dim_st, K.
  - apply (bj_marked (StDimArray name name_pos shared dims t)); [reflexivity|]. apply steady_bj1. intros P K. apply dim_array_st, K.
  - apply (bj_marked (StEnd code pos)); [reflexivity|]. apply steady_bj1. intros P K. apply end_st, K.
  - apply (bj_marked (StExitDo pos)); [reflexivity|]. apply bj_bj1, same_gen_bj. intros x x' F. split.
    + intros E O. eapply exit_do_ok; eassumption.
    + unfold compile_exit_do in F. destruct (t_do (fst x)); [discriminate F|]. apply COk_inj in F. subst x'. exact (gle_emit INop pos (s_gen x)).
  - apply (bj_marked (StExitFor pos)); [reflexivity|]. apply bj_bj1, same_gen_bj. intros x x' F. split.
    + intros E O. eapply exit_for_ok; eassumption.
    + unfold compile_exit_for in F. destruct (t_for (fst x)); [discriminate F|]. apply COk_inj in F. subst x'. exact (gle_emit INop pos (s_gen x)).
  - apply (bj_marked (StExitFunction pos)); [reflexivity|]. apply bj_bj1, exit_callable_bj.
  - apply (bj_marked (StExitSub pos)); [reflexivity|]. apply bj_bj1, exit_callable_bj.
  - apply (bj_marked (StGosub target pos)); [reflexivity|]. apply fixup_bj1.
  - apply (bj_marked (StGoto target pos)); [reflexivity|]. apply fixup_bj1.
  - apply (bj_unmarked (StLabel name pos)); [reflexivity|]. intros E x Q O H. unfold compile_label.
    destruct (define_label _ _ _) as [g []] eqn:D; [|exact I]. cbn [wp]. unfold define_label in D. injection D as <- _.
    apply H; [|split; [apply le_n|auto]]. destruct O as [[J1 J2 J3] A2 A3 A4]. split; try assumption. split; assumption.
  - apply (bj_marked (StOnError o)); [reflexivity|]. destruct o; cbn [compile_on_error].
    + apply fixup_bj1.
    + intros E x Q O _ H. cbn [wp]. apply H; [apply emit_ok; [exact O|intros t []]|apply emit_sle].
    + intros E x Q O _ H. cbn [wp]. apply H; [apply emit_ok; [exact O|intros t []]|apply emit_sle].
  - apply (bj_marked (StReturn pos)); [reflexivity|]. intros E x Q O _ H. cbn [wp].
    apply H; [apply emit_quiet; [exact O|exact I]|apply emit_sle].
Qed.

(** * Programs without ON ERROR GOTO *)

Definition calm (i : instr) : Prop := match i with ISetErrorHandler EhJump _ => False | _ => True end.
Definition calm_fixup (f : nat * fixup) : Prop := match snd f with FxOnErrorGoto _ => False | _ => True end.
Definition hush (g : codegen) : Prop := Forall calm (g_code g) /\ Forall calm_fixup (g_fixups g).

Lemma quiet_emit_hush i pos g : calm i -> hush g -> hush (emit i pos g).
Proof. intros Q [A B]. split; [|exact B]. apply Forall_app. auto. Qed.
Lemma hush_patch a i g : calm i -> hush g -> hush (patch a i g).
Proof. intros Q [A B]. split; [|exact B]. apply Forall_upd; assumption. Qed.
Lemma hush_fixup a f g : calm_fixup (a, f) -> hush g -> hush (add_fixup a f g).
Proof. intros Q [A B]. split; [exact A|]. constructor; assumption. Qed.

Lemma hush_mark a g : hush g -> hush (mark_statement_start a g).
Proof. intros [A B]. split; assumption. Qed.

Definition bh (body : block) : Prop := forall x (Q : _ -> Prop), hush (s_gen x) ->
  (forall x', hush (s_gen x') -> Q x') -> wp (body x) Q.

Lemma hush_steady : steady hush.
Proof.
  split.
  - intros i pos g Q H. apply quiet_emit_hush; [|exact H]. destruct i; try exact I; contradiction.
  - intros g m [A B]. split; assumption.
  - intros g m [A B]. split; assumption.
  - intros r k pos g H. apply hush_fixup; [exact I|]. apply quiet_emit_hush; [exact I|exact H].
  - intros r k pos l g H. apply hush_fixup; [exact I|]. destruct (quiet_emit_hush INop pos g I H). split; assumption.
  - intros a l g [A B]. split; assumption.
Qed.
Lemma bh_steady body : (forall P, steady P -> bsteady P body) -> bh body.
Proof. intros B x Q H K. apply (B _ hush_steady); [exact H|]. intros x' _ H'. apply K, H'. Qed.
Lemma guard_bh e x (Q : _ -> Prop) : hush (s_gen x) -> (forall r x', hush (s_gen x') -> Q (r, x')) -> wp (guard_expr e x) Q.
Proof. intros H K. apply (guard_st _ hush_steady); [exact H|]. intros r x' _ H'. apply K, H'. Qed.

Ltac hs1 :=
  match goal with
  | |- hush (fst (_, _)) => cbn [fst]
  | |- hush (s_gen (_, _)) => unfold s_gen; cbn [fst]
  | |- hush (s_gen (s_emit _ _ _)) => unfold s_emit
  | |- hush (s_gen (s_patch _ _ _)) => unfold s_patch
  | |- hush (t_gen (set_gen _ _)) => cbn [t_gen set_gen]
  | |- hush (t_gen (set_do _ _)) => cbn [t_gen set_do]
  | |- hush (t_gen (set_for _ _)) => cbn [t_gen set_for]
  | |- hush (t_gen (set_current _ _)) => cbn [t_gen set_current]
  | |- hush (t_gen (set_exits _ _)) => cbn [t_gen set_exits]
  | |- hush (emit _ _ _) => apply quiet_emit_hush; [exact I|]
  | |- hush (patch _ _ _) => apply hush_patch; [exact I|]
  | |- hush (add_fixup _ _ _) => apply hush_fixup; [exact I|]
  | |- hush (mark_statement_start _ _) => apply hush_mark
  | |- hush _ => assumption
  end.
Ltac hs := unfold s_emit, s_patch, s_gen in *; cbn [fst snd t_gen set_gen set_do set_for set_current set_exits] in *; repeat hs1.
Lemma patch_jumps_bh l t : bh (patch_jumps l t).
Proof.
  induction l as [|[a p] l IH]; intros x Q R H; cbn [patch_jumps]; [cbn [wp]; auto|].
  apply wp_bind, target_j. apply IH; [|exact H]. hs.
Qed.
Ltac hstep :=
  first [ match goal with
          | |- wp (COk _) _ => cbn [wp]
          | |- wp (CErr _) _ => exact I
          | |- wp CPanic _ => exact I
          | |- wp (bind _ _) _ => apply wp_bind
          | |- wp (target_at _ _) _ => apply target_j
          | |- wp (guard_expr _ _) _ => apply guard_bh; [hs|intros]
          | |- wp (patch_jumps _ _ _) _ => apply patch_jumps_bh; [hs|intros]
          | |- wp (s_assignment _ _ _ _) _ => apply (bh_steady _ (fun P K => s_assignment_st P K _ _ _)); [hs|intros]
          | B : bh ?body |- wp (?body _) _ => apply B; [hs|intros]
          | |- wp (match ?e with _ => _ end) _ => destruct e eqn:?
          end ]; cbn beta iota zeta.

Lemma while_bh e body : bh body -> bh (compile_while e body).
Proof. intros B x Q R H. unfold compile_while. cbn zeta. repeat hstep. apply H. hs. Qed.
Lemma do_bh g body : bh body -> bh (compile_do g body).
Proof.
  intros B x Q R H. unfold compile_do. cbn zeta. pose proof while_bh as W. destruct g; repeat hstep; auto.
  apply W; [exact B|hs|]. intros x1 R1. repeat hstep. auto.
Qed.
Lemma for_bh i p d s e n body : bh body -> bh (compile_for i p d s e n body).
Proof.
  intros B x Q R H. unfold compile_for. cbn zeta. apply wp_bind.
  apply wp_mono with (P := fun y => hush (s_gen y)).
  { unfold for_iterator. repeat hstep; exact R. }
  intros x1 R1. repeat hstep. auto.
Qed.
Lemma branches_bh bs : forall ends x (Q : _ -> Prop), Forall (fun b => bh (snd b)) bs -> hush (s_gen x) ->
  (forall ends' x', hush (s_gen x') -> Q (ends', x')) -> wp (compile_branches bs ends x) Q.
Proof.
  induction bs as [|[e body] bs IH]; intros ends x Q F R H; cbn [compile_branches]; cbn zeta.
  - cbn [wp]. auto.
  - inversion F as [|? ? B F']; subst. cbn [snd] in B. apply wp_bind, guard_bh; [exact R|]. intros r x1 R1.
    cbn beta iota. apply wp_bind, B; [hs|]. intros x2 R2. destruct bs; repeat hstep; (apply IH; [exact F'|hs|exact H]).
Qed.
Lemma if_bh bs : Forall (fun b => bh (snd b)) bs -> bh (compile_if bs).
Proof.
  intros F x Q R H. unfold compile_if. apply wp_bind, branches_bh; [exact F|exact R|]. intros ends x1 R1.
  cbn beta iota. apply patch_jumps_bh; assumption.
Qed.
Lemma case_guards_bh l tr tt_ gs : forall jumps st (Q : _ -> Prop), hush (fst st) ->
  (forall j st', hush (fst st') -> Q (j, st')) -> wp (case_guards l tr tt_ gs jumps st) Q.
Proof.
  induction gs as [|g gs IH]; intros jumps st Q R H; cbn [case_guards]; cbn zeta; [cbn [wp]; auto|].
  apply wp_bind, (case_guard_st _ hush_steady); [exact R|]. intros c p st1 R1. cbn beta iota. apply wp_bind, target_j.
  apply IH; [|exact H]. unfold e_patch, e_emit. hs.
Qed.
Lemma dispatch_bh l tr tt_ ep cs : forall next pend st (Q : _ -> Prop), hush (fst st) ->
  Forall (fun c => bh (snd c)) cs -> Forall (fun p => bh (fst (fst p))) pend ->
  (forall pend' n st', Forall (fun p => bh (fst (fst p))) pend' -> hush (fst st') -> Q (pend', n, st')) ->
  wp (select_dispatch l tr tt_ ep cs next pend st) Q.
Proof.
  induction cs as [|[gs body] cs IH]; intros next pend st Q R F P H; cbn [select_dispatch]; cbn zeta.
  - cbn [wp]. auto.
  - inversion F as [|? ? B F']; subst. apply wp_bind. apply wp_mono with (P := fun y => hush (fst y)).
    { unfold patch_next, e_patch. repeat hstep; hs. }
    intros st1 R1. destruct gs.
    + apply IH; [unfold e_emit; hs|exact F'| |exact H]. apply Forall_app. split; [exact P|repeat constructor; exact B].
    + apply wp_bind, case_guards_bh; [exact R1|]. intros j st2 R2. cbn beta iota.
      apply IH; [unfold e_emit; hs|exact F'| |exact H]. apply Forall_app. split; [exact P|repeat constructor; exact B].
Qed.
Lemma bodies_bh ep pend : forall ends x (Q : _ -> Prop), Forall (fun p => bh (fst (fst p))) pend ->
  hush (s_gen x) -> (forall e x', hush (s_gen x') -> Q (e, x')) -> wp (select_bodies ep pend ends x) Q.
Proof.
  induction pend as [|[[body jumps] hn] pend IH]; intros ends x Q F R H; cbn [select_bodies].
  - cbn [wp]. auto.
  - inversion F as [|? ? B F']; subst. cbn [fst] in B. apply wp_bind, patch_jumps_bh; [exact R|]. intros x1 R1.
    apply wp_bind, B; [exact R1|]. intros x2 R2. destruct hn; (apply IH; [exact F'|hs|exact H]).
Qed.
Lemma fold_patch_bh l t : forall x, hush (s_gen x) ->
  hush (s_gen (fold_left (fun x a => s_patch a (IJump t) x) l x)).
Proof. induction l as [|a l IH]; intros x R; cbn [fold_left]; [exact R|]. apply IH. hs. Qed.
Lemma select_bh e cs ep : Forall (fun b => bh (snd b)) cs -> bh (compile_select e cs ep).
Proof.
  intros F x Q R H. unfold compile_select. apply wp_bind. unfold of_syms.
  destruct (reserve_temp (snd x)) as [[tr l]|] eqn:E; [|exact I]. cbn [wp]. apply wp_bind.
  apply (compile_expr_st _ hush_steady); [exact R|]. intros st1 t1 R1. cbn beta iota. apply wp_bind.
  apply dispatch_bh; [assumption|exact F|constructor|]. intros pend n st2 P R2. cbn beta iota zeta.
  apply wp_bind. apply wp_mono with (P := fun y => hush (s_gen y)).
  { repeat hstep; hs. }
  intros x2 R3. apply wp_bind, bodies_bh; [exact P|exact R3|]. intros ends x3 R4. repeat hstep. apply H, fold_patch_bh. hs.
Qed.
Lemma callable_bh n p ps body ep : bh body -> bh (compile_callable n p ps body ep).
Proof.
  intros B x Q R H. unfold compile_callable. apply wp_bind.
  destruct (declare_callable _ _ _ _) as [l| |]; [|exact I|exact I]. cbn [wp].
  destruct (existsb _ _); [exact I|]. apply wp_bind. unfold compile_user_callable. cbn zeta.
  destruct (t_current _); [exact I|].
  apply wp_bind, (bh_steady _ (fun P K => result_st P K n (symkey (vr_name n)) p)); [hs|]. intros x1 R1.
  apply wp_bind. destruct (define_params _ _ _) as [l1| |]; [|exact I|exact I]. cbn [wp].
  apply wp_bind, B; [exact R1|]. intros x2 R2. repeat hstep.
  all: try (apply H; hs; match goal with K : hush _ |- _ => destruct K end; split; assumption).
Qed.

Lemma stmts_bh l : Forall (fun s => goto_free s = true -> bh (compile_stmt s)) l -> forallb goto_free l = true -> bh (compile_stmts l).
Proof.
  induction 1 as [|s l B _ IH]; intros G x Q O H; cbn [compile_stmts].
  - cbn [wp]. auto.
  - cbn [forallb] in G. apply andb_prop in G as [G1 G2]. apply wp_bind, (B G1); [exact O|]. intros x1 O1. apply (IH G2); assumption.
Qed.
Lemma bh_marked s body : bh body -> bh (fun x => let* x' := body x in COk (mark_from s (s_pc x) x')).
Proof.
  intros B x Q O H. apply wp_bind, B; [exact O|]. intros x' O'. cbn [wp]. apply H. unfold mark_from.
  destruct (_ && _); [|exact O']. hs.
Qed.
Lemma bh_eq body body' : (forall x, body' x = body x) -> bh body -> bh body'.
Proof. intros E B x Q R H. rewrite E. apply B; assumption. Qed.

Lemma stmt_bh s : goto_free s = true -> bh (compile_stmt s).
Proof.
  induction s as [s Simple|n np ps body ep IH|g body IH|i ip d s0 e n body IH|bs IH|e cs ep IH|e body IH]
    using stmt_rect'; intros G; (eapply bh_eq; [intros x; apply compile_stmt_eq|]); cbn [goto_free] in G.
  2: apply (bh_marked (StCallable n np ps body ep)), callable_bh, stmts_bh; assumption.
  2: apply (bh_marked (StDo g body)), do_bh, stmts_bh; assumption.
  2: apply (bh_marked (StFor i ip d s0 e n body)), for_bh, stmts_bh; assumption.
  2: { apply (bh_marked (StIf bs)), if_bh. revert G. clear -IH. induction IH; intros G; constructor; cbn [forallb] in G;
       apply andb_prop in G as [G1 G2]; auto. apply stmts_bh; assumption. }
  2: { apply (bh_marked (StSelect e cs ep)), select_bh. revert G. clear -IH. induction IH; intros G; constructor; cbn [forallb] in G;
       apply andb_prop in G as [G1 G2]; auto. apply stmts_bh; assumption. }
  2: apply (bh_marked (StWhile e body)), while_bh, stmts_bh; assumption.
  destruct s; try contradiction Simple.
  - apply (bh_marked (StArrayAssignment v vpos subs e)), bh_steady. intros P K. apply array_assignment_st, K.
  - apply (bh_marked (StAssignment v vpos e)), bh_steady. intros P K. apply s_assignment_st, K.
  - apply (bh_marked (StCall v vpos args)), bh_steady. intros P K. apply call_stmt_st, K.
  - apply (bh_marked (StData values)). intros x Q R H. unfold compile_data. apply wp_bind.
    destruct (data_values _); [|exact I|exact I]. cbn [wp]. apply H. exact R.
  - apply (bh_marked (StDeclare name name_pos params)). intros x Q R H. unfold compile_declare.
    destruct (t_current _); [exact I|]. apply wp_bind.
    destruct (declare_callable _ _ _ _); [|exact I|exact I]. cbn [wp]. apply H. exact R.
  - apply (bh_marked (StDim name name_pos shared t)), bh_steady. intros P K. apply dim_st, K.
  - apply (bh_marked (StDimArray name name_pos shared dims t)), bh_steady. intros P K. apply dim_array_st, K.
  - apply (bh_marked (StEnd code pos)), bh_steady. intros P K. apply end_st, K.
  - apply (bh_marked (StExitDo pos)). intros x Q R H. unfold compile_exit_do.
    destruct (t_do _); [exact I|]. cbn [wp]. apply H. hs.
  - apply (bh_marked (StExitFor pos)). intros x Q R H. unfold compile_exit_for.
    destruct (t_for _); [exact I|]. cbn [wp]. apply H. hs.
  - apply (bh_marked (StExitFunction pos)). intros x Q R H. unfold compile_exit_callable.
    match goal with |- wp (if ?b then _ else _) _ => destruct b end; [|exact I]. cbn [wp]. apply H. hs.
  - apply (bh_marked (StExitSub pos)). intros x Q R H. unfold compile_exit_callable.
    match goal with |- wp (if ?b then _ else _) _ => destruct b end; [|exact I]. cbn [wp]. apply H. hs.
  - apply (bh_marked (StGosub target pos)). intros x Q R H. cbn [wp]. apply H. unfold emit_fixup. hs.
  - apply (bh_marked (StGoto target pos)). intros x Q R H. cbn [wp]. apply H. unfold emit_fixup. hs.
  - apply (bh_marked (StLabel name pos)). intros x Q R H. unfold compile_label.
    destruct (define_label _ _ _) as [g []] eqn:D; [|exact I]. cbn [wp]. unfold define_label in D. injection D as <- _.
    apply H. hs.
  - apply (bh_marked (StOnError o)). intros x Q R H. cbn [wp]. apply H.
    destruct o; [discriminate G| |]; unfold compile_on_error; hs.
  - apply (bh_marked (StReturn pos)). intros x Q R H. cbn [wp]. apply H. hs.
Qed.

(** * Images *)

Lemma nth_removelast {A} (l : list A) i : i < length l - 1 -> nth_error (removelast l) i = nth_error l i.
Proof.
  revert i. induction l as [|a l IH]; intros i H; [reflexivity|]. destruct l as [|b l]; [cbn in H; lia|].
  change (removelast (a :: b :: l)) with (a :: removelast (b :: l)). destruct i; [reflexivity|]. cbn [nth_error].
  apply IH. cbn [length] in *. lia.
Qed.

Lemma gj_pop E g : gj E g -> g_fixups g = [] -> gj E (pop_eof g).
Proof.
  intros [L J G] F. unfold pop_eof. destruct (g_code g) as [|i0 c0] eqn:C; [split; [congruence|rewrite C; exact J|exact G]|].
  rewrite <- C in *. split.
  - cbn [with_code g_code g_instrs]. rewrite !length_removelast. congruence.
  - intros pc i t A B D. cbn [with_code g_code] in A.
    assert (P : pc < length (g_code g) - 1). { rewrite <- length_removelast. apply nth_error_Some. congruence. }
    rewrite nth_removelast in A by exact P.
    assert (M : forall a, a <= pc -> is_marked g a -> is_marked (with_code g (removelast (g_code g)) (removelast (g_instrs g))) a).
    { intros a La (m & X & Y). exists m. split; [|exact Y]. cbn [with_code g_instrs]. rewrite nth_removelast; [exact X|]. rewrite L. lia. }
    destruct (J _ _ _ A B D) as [X|[X|X]]; auto.
  - cbn [with_code g_fixups]. rewrite F. intros a l [].
Qed.

Lemma fixup_list_gj E l : forall g g', apply_fixup_list l g = COk g' -> g_fixups g = [] ->
  (forall a n, In (a, FxGoto n) l -> is_marked g a) -> gj E g -> gj E g' /\ g_fixups g' = [].
Proof.
  induction l as [|[a f] l IH]; intros g g' H F M O; cbn [apply_fixup_list] in H.
  - apply COk_inj in H. subst. auto.
  - destruct (nth_error _ _) as [m|]; [|discriminate H]. apply bind_ok in H as (i & R & H).
    apply (IH _ _ H); [exact F| |].
    + intros b n B. apply (M b n). right. exact B.
    + apply gj_patch; [exact O|]. intros t T _. right. left. destruct f; cbn [resolve_fixup] in R.
      * destruct (assoc _ _) as [[tg e]|]; [|discriminate R]. apply bind_ok in R as (x & _ & R). apply COk_inj in R. subst i. contradiction.
      * destruct (assoc _ _) as [tg|]; [|discriminate R]. apply bind_ok in R as (x & _ & R). apply COk_inj in R. subst i. contradiction.
      * eapply M. left. reflexivity.
      * destruct (assoc _ _) as [tg|]; [|discriminate R]. apply bind_ok in R as (x & _ & R). apply COk_inj in R. subst i. contradiction.
Qed.
Lemma fixups_gj g g' : apply_fixups g = COk g' -> gj (fun _ => False) g -> gj (fun _ => False) g' /\ g_fixups g' = [].
Proof.
  intros H [L J G]. eapply fixup_list_gj; [exact H|reflexivity| |].
  - intros a n A. destruct (G a n A) as [_ [X|[]]]. exact X.
  - split; [exact L|exact J|intros a l []].
Qed.
Lemma fixup_list_hush l : forall g g', apply_fixup_list l g = COk g' -> Forall calm_fixup l -> hush g -> hush g'.
Proof.
  induction l as [|[a f] l IH]; intros g g' H F O; cbn [apply_fixup_list] in H.
  - apply COk_inj in H. subst. exact O.
  - inversion F as [|? ? Fa F']; subst. destruct (nth_error _ _) as [m|]; [|discriminate H]. apply bind_ok in H as (i & R & H).
    apply (IH _ _ H F'). apply hush_patch; [|exact O]. destruct f; cbn [resolve_fixup] in R.
    + destruct (assoc _ _) as [[tg e]|]; [|discriminate R]. apply bind_ok in R as (x & _ & R). apply COk_inj in R. subst i. exact I.
    + destruct (assoc _ _) as [tg|]; [|discriminate R]. apply bind_ok in R as (x & _ & R). apply COk_inj in R. subst i. exact I.
    + destruct (assoc _ _) as [tg|]; [|discriminate R]. apply bind_ok in R as (x & _ & R). apply COk_inj in R. subst i. exact I.
    + contradiction Fa.
Qed.
Lemma hush_pop g : hush g -> hush (pop_eof g).
Proof.
  intros [A B]. unfold pop_eof. destruct (g_code g) eqn:E; [split; [rewrite E; constructor|exact B]|].
  split; [|exact B]. cbn [with_code g_code]. rewrite <- E. rewrite <- E in A. clear -A.
  induction A as [|a l Pa H IH]; [constructor|]. destruct l; [constructor|].
  change (removelast (a :: i :: l)) with (a :: removelast (i :: l)). constructor; assumption.
Qed.

Lemma gj_new : gj (fun _ => False) codegen_new.
Proof. split; [reflexivity| |intros a l []]. intros pc i t A. destruct pc; discriminate A. Qed.

Lemma session_gj up defs srcs k img : session up defs srcs k img -> gj (fun _ => False) (t_gen (k_ctx k)).
Proof.
  induction 1 as [k H|srcs src k img o k' img' SE IH H].
  - refine (proj1 (globals_steady _ (kj_steady (fun _ => False) codegen_new) _ _ _ H _)). split; [exact gj_new|apply gle_refl].
  - destruct o; [|destruct (compile_more_fails _ _ _ _ _ _ H ltac:(discriminate)) as [-> ->]; exact IH..].
    pose proof (session_synced _ _ _ _ _ SE) as Y.
    destruct (compile_more_synced _ _ _ _ _ Y H) as (_ & _ & _ & _ & _ & x & g' & C & _ & F & -> & _).
    assert (X : ok (fun _ => False) x).
    { refine (wp_ok (compile_stmts (fst src) _) (fun y => ok (fun _ => False) y) x C _).
      apply (stmts_bj (fst src)) with (E := fun _ => False).
      - clear. induction (fst src); constructor; auto using stmt_bj.
      - split.
        + apply gj_pop; [exact IH|apply Y].
        + cbn [fst set_gen t_do]. rewrite (sy_do _ _ Y). constructor.
        + cbn [fst set_gen t_for]. rewrite (sy_for _ _ Y). constructor.
        + cbn [fst set_gen t_exits]. rewrite (sy_exits _ _ Y). constructor.
      - auto. }
    apply (fixups_gj _ _ F). apply gj_emit_quiet; [apply X|exact I].
Qed.

Lemma session_hush up defs srcs k img : session up defs srcs k img -> Forall without_on_error_goto srcs -> hush (t_gen (k_ctx k)).
Proof.
  induction 1 as [k H|srcs src k img o k' img' SE IH H]; intros W.
  - eapply globals_steady; [exact hush_steady|exact H|]. split; constructor.
  - apply Forall_app in W as [W1 W2]. inversion W2 as [|? ? W3 _]; subst.
    destruct o; [|destruct (compile_more_fails _ _ _ _ _ _ H ltac:(discriminate)) as [-> ->]; auto..].
    destruct (compile_more_synced _ _ _ _ _ (session_synced _ _ _ _ _ SE) H) as (_ & _ & _ & _ & _ & x & g' & C & _ & F & -> & _).
    assert (X : hush (s_gen x)).
    { refine (wp_ok (compile_stmts (fst src) _) (fun y => hush (s_gen y)) x C _).
      apply (stmts_bh (fst src)).
      - clear. induction (fst src); constructor; auto using stmt_bh.
      - exact W3.
      - apply hush_pop, IH, W1.
      - auto. }
    assert (X' : hush (emit IEof (0, 0)%N (s_gen x))) by (apply quiet_emit_hush; [exact I|exact X]).
    eapply fixup_list_hush; [exact F|apply X'|]. destruct X'. split; [assumption|constructor].
Qed.

Lemma session_image up defs srcs k img : session up defs srcs k img ->
  img = cimage_default \/
  exists k0 srcs0, session up defs srcs0 k0 img /\ (forall P, Forall P srcs -> Forall P srcs0) /\
    ci_code img = map encode (g_code (t_gen (k_ctx k0))) /\ ci_instrs img = g_instrs (t_gen (k_ctx k0)).
Proof.
  induction 1 as [k H|srcs src k img o k' img' SE IH H]; [auto|]. destruct o.
  - right. destruct (compile_more_synced _ _ _ _ _ (session_synced _ _ _ _ _ SE) H) as (_ & _ & A & B & _).
    exists k', (srcs ++ [src]). split; [econstructor; eassumption|auto].
  - destruct (compile_more_fails _ _ _ _ _ _ H ltac:(discriminate)) as [-> ->]. destruct IH as [IH|(k0 & s0 & A & B & C)]; [auto|].
    right. exists k0, s0. split; [exact A|]. split; [|exact C]. intros P F. apply B. apply Forall_app in F. apply F.
  - destruct (compile_more_fails _ _ _ _ _ _ H ltac:(discriminate)) as [-> ->]. destruct IH as [IH|(k0 & s0 & A & B & C)]; [auto|].
    right. exists k0, s0. split; [exact A|]. split; [|exact C]. intros P F. apply B. apply Forall_app in F. apply F.
Qed.

Lemma session_marked up defs srcs k img : session up defs srcs k img -> backward_jumps_marked (runnable img).
Proof.
  intros H. destruct (session_image _ _ _ _ _ H) as [->|(k0 & s0 & H0 & _ & A & B)].
  - intros pc t (w & n & E & _ & D) _. cbn in E. destruct pc as [|[|pc]]; try discriminate E. injection E as <-.
    change (decode (encode IEof) = Some (IJump n) \/ (exists r, decode (encode IEof) = Some (IJumpIfFalse r n))) in D.
    rewrite decode_encode in D by exact I. destruct D as [D|[r D]]; discriminate D.
  - pose proof (session_gj _ _ _ _ _ H0) as [L J G]. pose proof (session_ranged _ _ _ _ _ H0) as R.
    intros pc t (w & n & E & <- & D) LE. cbn [runnable i_code] in E. rewrite A in E.
    rewrite nth_error_map in E. destruct (nth_error (g_code _) pc) as [i|] eqn:N; [|discriminate E]. injection E as <-.
    pose proof (proj1 (Forall_forall _ _) (rg_code _ R) _ (nth_error_In _ _ N)) as IR.
    rewrite decode_encode in D by exact IR.
    assert (T : goes i (N.to_nat n)). { destruct D as [D|[r D]]; injection D as ->; reflexivity. }
    assert (M : forall a, is_marked (t_gen (k_ctx k0)) a -> stmt_start (runnable img) a = Some true).
    { intros a (m & X & Y). unfold stmt_start. cbn [runnable i_meta]. rewrite B, X. congruence. }
    destruct (J _ _ _ N T LE) as [X|[X|[]]]; auto.
Qed.

Lemma session_no_handlers up defs srcs k img : session up defs srcs k img -> Forall without_on_error_goto srcs ->
  no_jump_handlers (runnable img).
Proof.
  intros H W. destruct (session_image _ _ _ _ _ H) as [->|(k0 & s0 & H0 & S0 & A & B)].
  - intros pc w t E. cbn in E. destruct pc as [|[|pc]]; try discriminate E. injection E as <-.
    change (decode (encode IEof) <> Some (ISetErrorHandler EhJump t)). rewrite decode_encode by exact I. discriminate.
  - pose proof (session_hush _ _ _ _ _ H0 (S0 _ W)) as [C _]. pose proof (session_ranged _ _ _ _ _ H0) as R.
    intros pc w t E D. cbn [runnable i_code] in E. rewrite A in E.
    rewrite nth_error_map in E. destruct (nth_error (g_code _) pc) as [i|] eqn:N; [|discriminate E]. injection E as <-.
    pose proof (proj1 (Forall_forall _ _) (rg_code _ R) _ (nth_error_In _ _ N)) as IR.
    rewrite decode_encode in D by exact IR. injection D as ->.
    exact (proj1 (Forall_forall _ _) C _ (nth_error_In _ _ N)).
Qed.
