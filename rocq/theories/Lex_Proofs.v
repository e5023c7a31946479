(** Proofs about the reader and the lexer. *)
From Coq Require Import String Sorted.
From Verif Require Import Base Bytecode_Model Vm_Model Ast_Model Lex_Model Lex_Spec.
Local Open Scope string_scope.
Local Open Scope N_scope.
Local Open Scope list_scope.

(** * Positions *)

Lemma next_stop_least : forall w, w < next_stop w /\ (8 | next_stop w) /\
  forall m, (8 | m) -> w < m -> next_stop w <= m.
Proof.
  intros w. unfold next_stop. split; [|split].
  - pose proof (N.div_mod' w 8). pose proof (N.mod_upper_bound w 8). lia.
  - exists (w / 8 + 1). reflexivity.
  - intros m [k ->] L.
    assert (w / 8 < k) by (apply N.div_lt_upper_bound; lia).
    lia.
Qed.

Lemma last_line_snoc : forall t c,
  last_line (t ++ [c]) = if c =? 10 then [] else last_line t ++ [c].
Proof.
  induction t as [|a r IH]; intros c.
  - cbn [app last_line existsb]. destruct (c =? 10); reflexivity.
  - cbn [app last_line]. rewrite existsb_app. cbn [existsb]. rewrite orb_false_r.
    rewrite IH. rewrite (N.eqb_sym 10 c).
    destruct (c =? 10) eqn:E.
    + rewrite orb_true_r. reflexivity.
    + rewrite orb_false_r. destruct (existsb (N.eqb 10) r); [reflexivity|].
      destruct (a =? 10); reflexivity.
Qed.

Lemma count_snoc : forall t c,
  count_occ N.eq_dec (t ++ [c]) 10 = (count_occ N.eq_dec t 10%N + if (c =? 10)%N then 1 else 0)%nat.
Proof.
  intros t c. rewrite count_occ_app. f_equal. cbn [count_occ].
  destruct (N.eq_dec c 10) as [->|Hn]; [reflexivity|].
  apply N.eqb_neq in Hn. rewrite Hn. reflexivity.
Qed.

Lemma position_after_snoc : forall t c, position_after (t ++ [c]) = advance (position_after t) c.
Proof.
  intros t c. unfold position_after, advance.
  rewrite count_snoc, last_line_snoc.
  destruct (c =? 10) eqn:E.
  - f_equal. lia.
  - unfold columns. rewrite fold_left_app. cbn [fold_left].
    set (w := fold_left _ (last_line t) 0).
    destruct (c =? 9); f_equal; try lia.
    unfold next_stop, TAB_LENGTH.
    replace (1 + w - 1 + 8) with (w + 1 * 8) by lia.
    rewrite N.div_add by lia. lia.
Qed.

Lemma position_after_app : forall w t, position_after (t ++ w) = after w (position_after t).
Proof.
  induction w as [|c w IH]; intros t.
  - rewrite app_nil_r. reflexivity.
  - change (c :: w) with ([c] ++ w). rewrite app_assoc, IH, position_after_snoc. reflexivity.
Qed.

Lemma position_after_fold : forall t, position_after t = after t (1, 1).
Proof. intros t. apply (position_after_app t []). Qed.

Lemma position_S : forall text k c, nth_error text k = Some c ->
  position text (S k) = advance (position text k) c.
Proof.
  intros text k c E. unfold position. rewrite <- position_after_snoc. f_equal.
  revert k E. induction text as [|x r IH]; intros [|k] E; cbn [nth_error] in E; try discriminate E.
  - cbn [firstn app]. congruence.
  - cbn [firstn app]. f_equal. apply IH. exact E.
Qed.

(** * The reader *)

Definition tail_ok (fails : bool) (tail : list (res unit ustr)) : Prop :=
  if fails then exists r, tail = Err tt :: r else tail = [].

(** A reader without peeked character that still has the text [s] to give. *)
Inductive holds (fails : bool) : list N -> linecol -> reader -> Prop :=
| hd_unknown ls tail p : tail_ok fails tail ->
    holds fails (concat ls) p (mkReader (map Ok ls ++ tail) PUnknown None p)
| hd_chars ls tail ch k p : tail_ok fails tail ->
    holds fails (skipn k ch ++ concat ls) p (mkReader (map Ok ls ++ tail) (PChars ch k) None p)
| hd_eof p : fails = false -> holds fails [] p (mkReader [] PEof None p).

Lemma refill_holds : forall fails ls tail p c s, tail_ok fails tail -> concat ls = c :: s ->
  exists r, refill_and_next (map Ok ls ++ tail) p = (Some (Ok (c, p)), r) /\
    holds fails s (advance p c) r.
Proof.
  intros fails ls tail p c s T. induction ls as [|l ls IH]; intros E.
  - discriminate E.
  - cbn [map app refill_and_next concat] in *. destruct l as [|x l].
    + apply IH. exact E.
    + cbn [app] in E. assert (x = c) by congruence. subst x.
      eexists. split; [reflexivity|].
      replace s with (skipn 1 (c :: l) ++ concat ls) by (cbn [skipn]; congruence).
      apply hd_chars. exact T.
Qed.

Lemma refill_end : forall fails ls tail p, tail_ok fails tail -> concat ls = [] ->
  exists r, refill_and_next (map Ok ls ++ tail) p = (if fails then Some (Err SourceError) else None, r) /\
    rd_peeked r = None /\ rd_next_pos r = p /\
    if fails then rd_pending r = PError false else holds false [] p r.
Proof.
  intros fails ls tail p T. induction ls as [|l ls IH]; intros E.
  - cbn [map app]. destruct fails; cbn [tail_ok] in T.
    + destruct T as [r ->]. cbn [refill_and_next]. eexists. split; [reflexivity|].
      repeat split; reflexivity.
    + subst tail. cbn [refill_and_next]. eexists. split; [reflexivity|].
      repeat split; try reflexivity. apply hd_eof. reflexivity.
  - cbn [map app refill_and_next concat] in *. destruct l as [|x l]; [|discriminate E].
    apply IH. exact E.
Qed.

Lemma skipn_nth : forall (A : Type) (l : list A) k,
  skipn k l = match nth_error l k with Some x => x :: skipn (S k) l | None => [] end.
Proof.
  induction l as [|a l IH]; intros [|k]; cbn [skipn nth_error]; try reflexivity. apply IH.
Qed.

Lemma next_holds : forall fails c s p r, holds fails (c :: s) p r ->
  exists r', next r = (Some (Ok (c, p)), r') /\ holds fails s (advance p c) r'.
Proof.
  intros fails c s p r H. inversion H as [ls tail p0 T E1|ls tail ch k p0 T E1|]; subst.
  - unfold next. cbn [rd_peeked rd_pending rd_lines rd_next_pos]. apply refill_holds; auto.
  - unfold next. cbn [rd_peeked rd_pending rd_lines rd_next_pos].
    rewrite skipn_nth in E1. destruct (nth_error ch k) as [x|].
    + cbn [app] in E1. assert (x = c) by congruence. subst x.
      eexists. split; [reflexivity|].
      replace s with (skipn (S k) ch ++ concat ls) by congruence.
      apply hd_chars. exact T.
    + cbn [app] in E1. apply refill_holds; auto.
Qed.

Definition ended (fails : bool) (p : linecol) (r : reader) : Prop :=
  rd_peeked r = None /\ rd_next_pos r = p /\
  if fails then rd_pending r = PError false else holds false [] p r.

Lemma next_holds_end : forall fails p r, holds fails [] p r ->
  exists r', next r = (if fails then Some (Err SourceError) else None, r') /\ ended fails p r'.
Proof.
  intros fails p r H. inversion H as [ls tail p0 T E1|ls tail ch k p0 T E1|p0 E1]; subst.
  - unfold next. cbn [rd_peeked rd_pending rd_lines rd_next_pos]. apply refill_end; auto.
  - unfold next. cbn [rd_peeked rd_pending rd_lines rd_next_pos].
    apply app_eq_nil in E1. destruct E1 as [E1 E2].
    rewrite skipn_nth in E1. destruct (nth_error ch k) as [x|]; [discriminate E1|].
    apply refill_end; auto.
  - cbn. eexists. split; [reflexivity|]. repeat split; try reflexivity. exact H.
Qed.

Lemma next_ended : forall fails p r, ended fails p r ->
  exists r', next r = (if fails then Some (Err AlreadyConsumed) else None, r') /\ ended fails p r'.
Proof.
  intros fails p r (P1 & P2 & P3). destruct fails.
  - unfold next. rewrite P1, P3. eexists. split; [reflexivity|]. repeat split; assumption.
  - apply next_holds_end in P3. exact P3.
Qed.

(** The logical state after [k] reads of the text. *)
Definition at_read (text : list N) (fails : bool) (k : nat) (r : reader) : Prop :=
  if (k <=? length text)%nat then holds fails (skipn k text) (position text k) r
  else ended fails (position text (length text)) r.

Lemma next_at : forall text fails k r, at_read text fails k r ->
  exists r', next r = (item text fails k, r') /\ at_read text fails (S k) r'.
Proof.
  intros text fails k r H. unfold at_read in *. unfold item.
  destruct (k <=? length text)%nat eqn:E.
  - apply Nat.leb_le in E.
    rewrite skipn_nth in H. destruct (nth_error text k) as [c|] eqn:Ec.
    + apply next_holds in H. destruct H as (r' & H1 & H2). exists r'. split; [exact H1|].
      assert (k < length text)%nat by (apply nth_error_Some; congruence).
      rewrite (proj2 (Nat.leb_le _ _)) by lia.
      rewrite (position_S _ _ _ Ec). exact H2.
    + apply nth_error_None in Ec. assert (k = length text) by lia. subst k.
      apply next_holds_end in H. destruct H as (r' & H1 & H2). exists r'.
      rewrite Nat.eqb_refl. split; [exact H1|].
      rewrite (proj2 (Nat.leb_gt _ _)) by lia. exact H2.
  - apply Nat.leb_gt in E.
    rewrite (proj2 (nth_error_None text k)) by lia.
    rewrite (proj2 (Nat.eqb_neq _ _)) by lia.
    apply next_ended in H. destruct H as (r' & H1 & H2). exists r'. split; [exact H1|].
    rewrite (proj2 (Nat.leb_gt _ _)) by lia. exact H2.
Qed.

Lemma at_read_unpeeked : forall text fails k r, at_read text fails k r -> rd_peeked r = None.
Proof.
  intros text fails k r H. unfold at_read in H. destruct (k <=? length text)%nat.
  - inversion H; reflexivity.
  - apply H.
Qed.

(** Also after peeks. *)
Definition stands (text : list N) (fails : bool) (k : nat) (r : reader) : Prop :=
  at_read text fails k r \/
  exists r', at_read text fails (S k) r' /\
    r = mkReader (rd_lines r') (rd_pending r') (Some (item text fails k)) (rd_next_pos r').

Lemma next_stands : forall text fails k r, stands text fails k r ->
  exists r', next r = (item text fails k, r') /\ stands text fails (S k) r'.
Proof.
  intros text fails k r [H|(r' & H & ->)].
  - apply next_at in H. destruct H as (r' & H1 & H2). exists r'. split; [exact H1|left; exact H2].
  - exists r'. split; [|left; exact H]. unfold next. cbn [rd_peeked rd_lines rd_pending rd_next_pos].
    f_equal. pose proof (at_read_unpeeked _ _ _ _ H) as U. destruct r'. cbn in *. subst. reflexivity.
Qed.

Lemma peek_stands : forall text fails k r, stands text fails k r ->
  exists r', peek r = (item text fails k, r') /\ stands text fails k r'.
Proof.
  intros text fails k r [H|(r' & H & ->)].
  - pose proof (at_read_unpeeked _ _ _ _ H) as U. unfold peek. rewrite U.
    apply next_at in H. destruct H as (r' & H1 & H2). rewrite H1.
    eexists. split; [reflexivity|]. right. exists r'. split; [exact H2|reflexivity].
  - unfold peek. cbn [rd_peeked]. eexists. split; [reflexivity|]. right. exists r'. auto.
Qed.

Lemma run_script : forall ops text fails k r, stands text fails k r ->
  run_reader ops r = script text fails k ops.
Proof.
  induction ops as [|[|] o IH]; intros text fails k r H; cbn [run_reader script]; [reflexivity| |].
  - apply next_stands in H. destruct H as (r' & -> & H). f_equal. apply IH. exact H.
  - apply peek_stands in H. destruct H as (r' & -> & H). f_equal. apply IH. exact H.
Qed.

Lemma reader_from_stands : forall ls fails tail, tail_ok fails tail ->
  stands (concat ls) fails 0 (reader_from (map Ok ls ++ tail)).
Proof.
  intros ls fails tail T. left. unfold at_read. cbn [Nat.leb skipn].
  apply hd_unknown. exact T.
Qed.

(** * Characters *)

Lemma is_space_spec : forall c, is_space c = true <-> blank c.
Proof.
  intros c. unfold is_space, blank. cbn [In]. rewrite !orb_true_iff, !N.eqb_eq.
  split; [intros [[E|E]|E]; rewrite E; auto|intros [<-|[<-|[<-|[]]]]; auto].
Qed.

Lemma is_separator_spec : forall c, is_separator c = true <-> ends_word c.
Proof.
  intros c. unfold is_separator, ends_word. rewrite orb_true_iff, is_space_spec, existsb_exists.
  assert (P : forall x, In x [10; 58; 40; 41; 39; 61; 60; 62; 59; 44; 43; 45; 42; 47; 94] <->
                        In x (10 :: u ":()'=<>;,+-*/^")).
  { intros x. split; intros I; vm_compute in I |- *; intuition. }
  split.
  - intros [(x & I & E)|B]; [right|left; exact B]. apply N.eqb_eq in E. subst x. apply P. exact I.
  - intros [B|I]; [right; exact B|left]. exists c. split; [apply P; exact I|apply N.eqb_refl].
Qed.

Lemma ends_word_cases : forall c, ends_word c ->
  In c [32; 9; 13; 10; 58; 40; 41; 39; 61; 60; 62; 59; 44; 43; 45; 42; 47; 94].
Proof.
  intros c [B|I]; [unfold blank in B|]; vm_compute in *; intuition.
Qed.

Lemma is_ascii_digit_spec : forall c, is_ascii_digit c = true <-> 48 <= c <= 57.
Proof. intros c. unfold is_ascii_digit. rewrite andb_true_iff, !N.leb_le. reflexivity. Qed.

Lemma ends_word_not : forall c, ends_word c ->
  c <> 46 /\ is_ascii_digit c = false /\ is_hex_letter c = false /\ c <> 95 /\ c < 128.
Proof.
  intros c E. apply ends_word_cases in E. cbn [In] in E.
  repeat (destruct E as [<-|E]; [repeat split; try reflexivity; discriminate|]). destruct E.
Qed.

Lemma to_digit_spec : forall c radix d, radix <= 16 ->
  (to_digit c radix = Some d <-> digit_value c d /\ d < radix).
Proof.
  intros c radix d R. unfold to_digit, digit_value. split.
  - intros E.
    destruct (is_ascii_digit c) eqn:D; [|destruct ((97 <=? c) && (c <=? 102)) eqn:L;
      [|destruct ((65 <=? c) && (c <=? 70)) eqn:U; [|discriminate E]]].
    + apply is_ascii_digit_spec in D. destruct (c - 48 <? radix) eqn:B; [|discriminate E].
      assert (d = c - 48) by congruence. subst d. apply N.ltb_lt in B. split; [|lia]. left.
      assert (c = 48 \/ c = 49 \/ c = 50 \/ c = 51 \/ c = 52 \/ c = 53 \/ c = 54 \/ c = 55 \/ c = 56
              \/ c = 57) as C by lia.
      repeat (destruct C as [->|C]; [reflexivity|]). subst c. reflexivity.
    + apply andb_true_iff in L. rewrite !N.leb_le in L.
      destruct (c - 87 <? radix) eqn:B; [|discriminate E].
      assert (d = c - 87) by congruence. subst d. apply N.ltb_lt in B. split; [|lia]. left.
      assert (c = 97 \/ c = 98 \/ c = 99 \/ c = 100 \/ c = 101 \/ c = 102) as C by lia.
      repeat (destruct C as [->|C]; [reflexivity|]). subst c. reflexivity.
    + apply andb_true_iff in U. rewrite !N.leb_le in U.
      destruct (c - 55 <? radix) eqn:B; [|discriminate E].
      assert (d = c - 55) by congruence. subst d. apply N.ltb_lt in B. split; [|lia]. right.
      assert (c = 65 \/ c = 66 \/ c = 67 \/ c = 68 \/ c = 69 \/ c = 70) as C by lia.
      repeat (destruct C as [->|C]; [reflexivity|]). subst c. reflexivity.
  - intros [V B].
    assert (K : forall k, N.to_nat d = k -> d = N.of_nat k) by (intros; lia).
    destruct V as [V|V];
      destruct (N.to_nat d) as [|[|[|[|[|[|[|[|[|[|[|[|[|[|[|[|k]]]]]]]]]]]]]]]] eqn:Ed;
      try (destruct k; vm_compute in V; discriminate V);
      pose proof (K _ eq_refl) as Hd; vm_compute in V; apply (f_equal (fun o => match o with Some x => x | None => 0 end)) in V;
      cbv beta iota in V; subst c; rewrite Hd in B |- *; cbn in B |- *;
      rewrite (proj2 (N.ltb_lt _ _) B); reflexivity.
Qed.

Lemma digit_value_fun : forall c d d', digit_value c d -> digit_value c d' -> d < 16 -> d' < 16 -> d = d'.
Proof.
  intros c d d' H1 H2 B1 B2.
  assert (to_digit c 16 = Some d) by (apply to_digit_spec; [lia|split; assumption]).
  assert (to_digit c 16 = Some d') by (apply to_digit_spec; [lia|split; assumption]).
  congruence.
Qed.

Lemma from_radix_some : forall limit base s acc n, base <= 16 ->
  from_radix limit base acc s = Some n ->
  exists ds, Forall2 digit_value s ds /\ Forall (fun d => d < base) ds /\
    n = acc * base ^ N.of_nat (length ds) + positional base ds /\ (acc <= limit -> n <= limit).
Proof.
  intros limit base s. induction s as [|c s IH]; intros acc n Hb E; cbn [from_radix] in E.
  - exists []. repeat split; try constructor; cbn [length positional N.of_nat].
    + rewrite N.pow_0_r. assert (acc = n) by congruence. lia.
    + assert (acc = n) by congruence. lia.
  - destruct (to_digit c base) as [d|] eqn:D; [|discriminate E].
    apply to_digit_spec in D; [|exact Hb].
    destruct (acc * base <=? limit); [|discriminate E].
    destruct (acc * base + d <=? limit) eqn:L2; [|discriminate E].
    apply N.leb_le in L2.
    apply IH in E; [|exact Hb]. destruct E as (ds & F & B & V & L).
    exists (d :: ds). split; [constructor; tauto|]. split; [constructor; tauto|].
    split; [|intros _; apply L; exact L2].
    rewrite V. cbn [length positional]. rewrite Nat2N.inj_succ, N.pow_succ_r'. lia.
Qed.

Lemma from_radix_complete : forall limit base s acc ds, 1 <= base <= 16 ->
  Forall2 digit_value s ds -> Forall (fun d => d < base) ds ->
  from_radix limit base acc s =
    if (match s with [] => true | _ => acc * base ^ N.of_nat (length ds) + positional base ds <=? limit end)
    then Some (acc * base ^ N.of_nat (length ds) + positional base ds) else None.
Proof.
  intros limit base s. induction s as [|c s IH]; intros acc ds Hb F B.
  - inversion F; subst. cbn [from_radix length positional N.of_nat]. rewrite N.pow_0_r.
    f_equal. lia.
  - inversion F as [|c' d s' ds' V F']; subst. inversion B as [|d' ds'' B1 B2]; subst.
    cbn [from_radix].
    assert (to_digit c base = Some d) as -> by (apply to_digit_spec; [lia|split; assumption]).
    assert (X : acc * base ^ N.of_nat (length (d :: ds')) + positional base (d :: ds') =
                (acc * base + d) * base ^ N.of_nat (length ds') + positional base ds').
    { cbn [length positional]. rewrite Nat2N.inj_succ, N.pow_succ_r'. lia. }
    rewrite X. clear X.
    assert (P : 1 <= base ^ N.of_nat (length ds')).
    { apply N.lt_pred_le. change (N.pred 1) with 0. apply N.neq_0_lt_0. apply N.pow_nonzero. lia. }
    assert (M : acc * base + d <= (acc * base + d) * base ^ N.of_nat (length ds') + positional base ds') by nia.
    destruct (acc * base <=? limit) eqn:L1.
    + destruct (acc * base + d <=? limit) eqn:L2.
      * rewrite (IH _ ds') by auto. destruct s; [|reflexivity].
        inversion F'; subst. cbn [length positional N.of_nat] in *. rewrite N.pow_0_r in *.
        apply N.leb_le in L2. rewrite (proj2 (N.leb_le _ _)) by lia. reflexivity.
      * apply N.leb_gt in L2. rewrite (proj2 (N.leb_gt _ _)) by lia. reflexivity.
    + apply N.leb_gt in L1. rewrite (proj2 (N.leb_gt _ _)) by lia. reflexivity.
Qed.

(** Some digit does not belong to the base. *)
Lemma from_radix_bad_digit : forall limit base s acc, base <= 16 ->
  (forall ds, Forall2 digit_value s ds -> ~ Forall (fun d => d < base) ds) ->
  from_radix limit base acc s = None.
Proof.
  intros limit base s acc Hb H. destruct (from_radix limit base acc s) as [n|] eqn:E; [|reflexivity].
  apply from_radix_some in E; [|exact Hb]. destruct E as (ds & F & B & _). exfalso. exact (H ds F B).
Qed.

Lemma u32_as_i32_spec : forall v, v < 2 ^ 32 ->
  (- 2 ^ 31 <= u32_as_i32 v < 2 ^ 31)%Z /\ (u32_as_i32 v mod 2 ^ 32 = Z.of_N v)%Z.
Proof.
  intros v L. unfold u32_as_i32. destruct (v <? 2 ^ 31) eqn:E.
  - apply N.ltb_lt in E. split; [lia|]. apply Z.mod_small. lia.
  - apply N.ltb_ge in E. split; [lia|].
    replace (Z.of_N v - 2 ^ 32)%Z with (Z.of_N v + (-1) * 2 ^ 32)%Z by lia.
    rewrite Z.mod_add by lia. apply Z.mod_small. lia.
Qed.

Lemma u32_as_i32_unique : forall v z, v < 2 ^ 32 -> (- 2 ^ 31 <= z < 2 ^ 31)%Z ->
  (z mod 2 ^ 32 = Z.of_N v)%Z -> z = u32_as_i32 v.
Proof.
  intros v z L R M. unfold u32_as_i32.
  pose proof (Z.div_mod z (2 ^ 32) ltac:(lia)) as D. rewrite M in D.
  destruct (v <? 2 ^ 31) eqn:E; [apply N.ltb_lt in E|apply N.ltb_ge in E].
  - assert (z / 2 ^ 32 = 0)%Z by lia. lia.
  - assert (z / 2 ^ 32 = -1)%Z by lia. lia.
Qed.

(** * Reading tokens *)

Lemma after_app : forall a b p, after (a ++ b) p = after b (after a p).
Proof. intros. unfold after. apply fold_left_app. Qed.
Lemma after_cons : forall c w p, after (c :: w) p = after w (advance p c).
Proof. reflexivity. Qed.
Lemma after_nil : forall p, after [] p = p.
Proof. reflexivity. Qed.

(** [i'] is what is left of [i] after some text. *)
Definition moves (i i' : input) : Prop := exists w, fst i = w ++ fst i' /\ snd i' = after w (snd i).

Lemma moves_refl : forall i, moves i i.
Proof. intros i. exists []. auto. Qed.
Lemma moves_step : forall c r p i, moves (r, advance p c) i -> moves (c :: r, p) i.
Proof.
  intros c r p i (w & E1 & E2). exists (c :: w). cbn [fst snd] in *. split.
  - rewrite E1. reflexivity.
  - rewrite E2. reflexivity.
Qed.
Lemma moves_trans : forall a b c, moves a b -> moves b c -> moves a c.
Proof.
  intros a b c (w & E1 & E2) (w' & E3 & E4). exists (w ++ w'). rewrite E1, E3, app_assoc.
  split; [reflexivity|]. rewrite E4, E2, after_app. reflexivity.
Qed.
Lemma moves_le : forall i i', moves i i' -> (length (fst i') <= length (fst i))%nat.
Proof. intros i i' (w & E & _). rewrite E, app_length. lia. Qed.

Lemma skip_bad_moves : forall t p, moves (t, p) (skip_bad t p).
Proof.
  induction t as [|c r IH]; intros p; cbn [skip_bad]; [apply moves_refl|].
  destruct (is_separator c); [apply moves_refl|]. apply moves_step, IH.
Qed.

Lemma handle_bad_moves : forall m fp i, moves i (snd (handle_bad_read m fp i)).
Proof. intros m fp [t p]. unfold handle_bad_read. cbn [fst snd]. apply skip_bad_moves. Qed.

Lemma number_token_moves : forall s dot fp i, moves i (snd (number_token s dot fp i)).
Proof.
  intros. unfold number_token.
  destruct dot; [destruct (last s 0 =? 46)|destruct (from_radix _ _ _ _)];
    try apply handle_bad_moves; apply moves_refl.
Qed.
Lemma consume_number_moves : forall fp t s dot p, moves (t, p) (snd (consume_number s dot fp t p)).
Proof.
  intros fp t. induction t as [|c r IH]; intros s dot p; cbn [consume_number].
  - apply number_token_moves.
  - destruct (c =? 46); [destruct dot|destruct (is_ascii_digit c); [|destruct (is_separator c)]].
    + apply moves_step, handle_bad_moves.
    + apply moves_step, IH.
    + apply moves_step, IH.
    + apply number_token_moves.
    + apply moves_step, handle_bad_moves.
Qed.
Lemma integer_token_moves : forall b s fp i, moves i (snd (integer_token b s fp i)).
Proof.
  intros. unfold integer_token. destruct s; [apply handle_bad_moves|].
  destruct (from_radix _ _ _ _); [apply moves_refl|apply handle_bad_moves].
Qed.
Lemma consume_integer_moves : forall b fp t s p, moves (t, p) (snd (consume_integer b s fp t p)).
Proof.
  intros b fp t. induction t as [|c r IH]; intros s p; cbn [consume_integer].
  - apply integer_token_moves.
  - destruct (c =? 46); [apply moves_step, handle_bad_moves|].
    destruct (is_ascii_digit c || is_hex_letter c); [apply moves_step, IH|].
    destruct (is_separator c); [apply integer_token_moves|apply moves_step, handle_bad_moves].
Qed.
Lemma consume_base_moves : forall fp i, moves i (snd (consume_integer_with_base fp i)).
Proof.
  intros fp [t p]. unfold consume_integer_with_base. destruct t as [|c r]; [apply handle_bad_moves|].
  destruct (base_of c).
  - apply moves_step. destruct r as [|c2 r2]; [apply handle_bad_moves|].
    destruct (c2 =? 95); [apply moves_step|]; apply consume_integer_moves.
  - destruct (is_separator c); [apply handle_bad_moves|apply moves_step, handle_bad_moves].
Qed.
Lemma consume_operator_moves : forall f fp i, moves i (snd (consume_operator f fp i)).
Proof.
  intros f fp [t p]. unfold consume_operator. destruct t as [|c r]; [apply moves_refl|].
  repeat match goal with |- context [if ?b then _ else _] => destruct b end;
    cbn [snd]; try apply moves_refl; apply moves_step, moves_refl.
Qed.
Lemma rest_of_line_moves : forall t p, moves (t, p) (snd (consume_rest_of_line t p)).
Proof.
  induction t as [|c r IH]; intros p; cbn [consume_rest_of_line]; [apply moves_refl|].
  destruct (c =? 10); [apply moves_step, moves_refl|apply moves_step, IH].
Qed.
Lemma consume_text_moves : forall d fp t s e p, moves (t, p) (snd (consume_text d s e fp t p)).
Proof.
  intros d fp t. induction t as [|c r IH]; intros s e p; cbn [consume_text].
  - apply handle_bad_moves.
  - repeat match goal with |- context [if ?b then _ else _] => destruct b end;
      apply moves_step; try apply IH. apply moves_refl.
Qed.

Section Tables.
Variable alnum numeric : N -> bool.
Variable uc : N -> list N.

Local Notation is_word := (is_word alnum).
Local Notation symbol_token := (symbol_token uc).
Local Notation consume_symbol := (consume_symbol alnum uc).
Local Notation label_rest := (label_rest alnum).
Local Notation consume_label := (consume_label alnum numeric).
Local Notation read_from := (read_from alnum numeric uc).
Local Notation read_token := (read_token alnum numeric uc).
Local Notation read := (Lex_Model.read alnum numeric uc).
Local Notation read_all := (read_all alnum numeric uc).
Local Notation tokens := (tokens alnum numeric uc).

Lemma symbol_token_moves : forall s v fp i, moves i (snd (symbol_token s v fp i)).
Proof.
  intros s v fp [t p]. unfold Lex_Model.symbol_token.
  destruct (ustr_eqb _ _); [apply rest_of_line_moves|].
  destruct (keyword _); apply moves_refl.
Qed.
Lemma consume_symbol_moves : forall fp t s p, moves (t, p) (snd (consume_symbol s fp t p)).
Proof.
  intros fp t. induction t as [|c r IH]; intros s p; cbn [Lex_Model.consume_symbol].
  - apply symbol_token_moves.
  - destruct (is_word c); [apply moves_step, IH|].
    destruct (is_separator c); [apply symbol_token_moves|].
    destruct (annotation c); apply moves_step; [apply symbol_token_moves|apply handle_bad_moves].
Qed.
Lemma label_rest_moves : forall fp t s p, moves (t, p) (snd (label_rest s fp t p)).
Proof.
  intros fp t. induction t as [|c r IH]; intros s p; cbn [Lex_Model.label_rest].
  - apply moves_refl.
  - destruct (is_word c); [apply moves_step, IH|].
    destruct (is_separator c); [apply moves_refl|apply handle_bad_moves].
Qed.
Lemma consume_label_moves : forall fp i, moves i (snd (consume_label fp i)).
Proof.
  intros fp [t p]. unfold Lex_Model.consume_label. destruct t as [|c r]; [apply moves_refl|].
  destruct (_ && _); [apply moves_step, label_rest_moves|apply moves_refl].
Qed.

Lemma read_from_moves : forall c fp i, moves i (snd (read_from c fp i)).
Proof.
  intros c fp [t p]. unfold Lex_Model.read_from. cbn [fst snd].
  repeat match goal with
  | |- context [if ?b then _ else _] => destruct b; [
      first [ apply moves_refl | apply rest_of_line_moves | apply consume_text_moves
            | apply consume_operator_moves | apply consume_label_moves | apply consume_base_moves
            | apply consume_number_moves | apply consume_symbol_moves ] |]
  end.
  apply handle_bad_moves.
Qed.

(** What one read consumes. *)
Lemma read_token_moves : forall t p, moves (t, p) (snd (read_token t p)).
Proof.
  intros t. induction t as [|c r IH]; intros p; cbn [Lex_Model.read_token]; [apply moves_refl|].
  destruct (is_space c); [apply moves_step, IH|]. apply moves_step, read_from_moves.
Qed.
Lemma read_token_progress : forall t p, t <> [] ->
  (length (fst (snd (read_token t p))) < length t)%nat.
Proof.
  intros t. induction t as [|c r IH]; intros p H; [congruence|]. cbn [Lex_Model.read_token length].
  destruct (is_space c).
  - destruct r as [|c' r']; [cbn; lia|]. specialize (IH (advance p c) ltac:(discriminate)). lia.
  - pose proof (moves_le _ _ (read_from_moves c p (r, advance p c))) as M. cbn [fst] in M. lia.
Qed.

Lemma read_moves : forall i, moves i (snd (read i)).
Proof.
  intros [t p]. unfold Lex_Model.read. destruct t as [|c r]; [apply read_token_moves|].
  destruct (_ && _); [|apply read_token_moves].
  apply moves_step. destruct r as [|c2 r2]; [apply handle_bad_moves|].
  destruct (c2 =? 33); [|apply handle_bad_moves].
  pose proof (rest_of_line_moves r2 (advance (advance p c) c2)) as M.
  destruct (consume_rest_of_line _ _) as [ts [t' p']]. cbn [snd] in M.
  apply moves_step. eapply moves_trans; [exact M|]. apply read_token_moves.
Qed.
Lemma read_progress : forall i, fst i <> [] -> (length (fst (snd (read i))) < length (fst i))%nat.
Proof.
  intros [t p] H. unfold Lex_Model.read. cbn [fst] in *. destruct t as [|c r]; [congruence|].
  destruct (_ && _); [|apply read_token_progress; discriminate].
  assert (B : forall m fp (i : input), (length (fst i) <= length r)%nat ->
             (length (fst (snd (handle_bad_read m fp i))) < length (c :: r))%nat).
  { intros m fp i L. pose proof (moves_le _ _ (handle_bad_moves m fp i)). cbn [length]. lia. }
  destruct r as [|c2 r2]; [apply B; cbn; lia|].
  destruct (c2 =? 33); [|apply B; cbn; lia].
  pose proof (moves_le _ _ (rest_of_line_moves r2 (advance (advance p c) c2))) as M.
  destruct (consume_rest_of_line _ _) as [ts [t' p']]. cbn [snd fst] in M.
  pose proof (moves_le _ _ (read_token_moves t' p')) as M2. cbn [fst length] in *. lia.
Qed.
Lemma read_end : forall p, read ([], p) = ((TkEof, p), ([], p)).
Proof. reflexivity. Qed.

Lemma read_all_fuel : forall n m i, (length (fst i) < n)%nat -> (length (fst i) < m)%nat ->
  read_all n i = read_all m i.
Proof.
  induction n as [|n IH]; intros m i L1 L2; [lia|]. destruct m as [|m]; [lia|].
  cbn [Lex_Model.read_all].
  destruct (fst i) eqn:E.
  - destruct i as [t p]. cbn [fst] in E. subst t. rewrite read_end. reflexivity.
  - pose proof (read_progress i ltac:(rewrite E; discriminate)) as P. rewrite E in P.
    destruct (read i) as [[tok q] i'] eqn:R. cbn [fst snd] in P.
    assert (X : read_all n i' = read_all m i') by (apply IH; cbn [length] in *; lia).
    destruct tok; try reflexivity; rewrite X; reflexivity.
Qed.

(** ** Spellings are read *)

Hypothesis TO : tables_ok alnum numeric uc.

Lemma is_word_spec : forall c, is_word c = true <-> word_char alnum c.
Proof. intros c. unfold Lex_Model.is_word, word_char. rewrite orb_true_iff, N.eqb_eq. reflexivity. Qed.

Lemma is_word_ascii : forall c, c < 128 -> is_word c = true ->
  c = 95 \/ 48 <= c <= 57 \/ 65 <= c <= 90 \/ 97 <= c <= 122.
Proof.
  intros c L H. apply is_word_spec in H. destruct H as [->|H]; [auto|].
  rewrite (to_alnum _ _ _ TO c L) in H.
  rewrite !orb_true_iff, !andb_true_iff, !N.leb_le in H. lia.
Qed.

Lemma ends_not_word : forall c, ends_word c -> is_word c = false.
Proof.
  intros c E. destruct (is_word c) eqn:W; [|reflexivity].
  pose proof (ends_word_not c E) as (_ & _ & _ & _ & L).
  apply is_word_ascii in W; [|exact L].
  apply ends_word_cases in E. cbn [In] in E.
  repeat (destruct E as [<-|E]; [lia|]). destruct E.
Qed.

Lemma number_prefix : forall fp w s dot t p, Forall (fun c => 48 <= c <= 57) w ->
  consume_number s dot fp (w ++ t) p = consume_number (s ++ w) dot fp t (after w p).
Proof.
  intros fp w. induction w as [|c w IH]; intros s dot t p F.
  - rewrite app_nil_r. reflexivity.
  - inversion F as [|c' w' D F']; subst. cbn [app consume_number].
    rewrite (proj2 (N.eqb_neq c 46)) by lia.
    rewrite (proj2 (is_ascii_digit_spec c) D), IH by exact F'.
    rewrite <- app_assoc. reflexivity.
Qed.

Lemma number_stop : forall fp s dot t p, word_ends t ->
  consume_number s dot fp t p = number_token s dot fp (t, p).
Proof.
  intros fp s dot [|c r] p E; [reflexivity|]. cbn [word_ends] in E. cbn [consume_number].
  pose proof (ends_word_not c E) as (E1 & E2 & _).
  apply N.eqb_neq in E1. rewrite E1, E2.
  rewrite (proj2 (is_separator_spec c) E). reflexivity.
Qed.

Lemma digit_char : forall c d base, digit_value c d -> d < base -> base <= 16 ->
  is_ascii_digit c || is_hex_letter c = true /\ (base <= 10 -> 48 <= c <= 57) /\ c <> 46 /\ c <> 95.
Proof.
  intros c d base V B L.
  assert (T : to_digit c base = Some d) by (apply to_digit_spec; [exact L|split; assumption]).
  unfold to_digit in T. unfold is_hex_letter.
  destruct (is_ascii_digit c) eqn:D.
  - apply is_ascii_digit_spec in D. repeat split; lia.
  - cbn [orb]. destruct ((97 <=? c) && (c <=? 102)) eqn:Lo; [|destruct ((65 <=? c) && (c <=? 70)) eqn:Up; [|discriminate T]].
    + rewrite andb_true_iff, !N.leb_le in Lo.
      destruct (c - 87 <? base) eqn:X; [|discriminate T]. apply N.ltb_lt in X. repeat split; lia.
    + rewrite andb_true_iff, !N.leb_le in Up.
      destruct (c - 55 <? base) eqn:X; [|discriminate T]. apply N.ltb_lt in X. repeat split; lia.
Qed.

Lemma numeral_chars : forall base s ds, base <= 16 -> Forall2 digit_value s ds ->
  Forall (fun d => d < base) ds ->
  Forall (fun c => is_ascii_digit c || is_hex_letter c = true /\ (base <= 10 -> 48 <= c <= 57) /\ c <> 46 /\ c <> 95) s.
Proof.
  intros base s ds L F. induction F as [|c d s ds V F IH]; intros B; constructor.
  - inversion B; subst. eapply digit_char; eauto.
  - apply IH. inversion B; assumption.
Qed.

Lemma read_decimal : forall s v rest p, numeral 10 s v -> word_ends rest ->
  exists c r, s = c :: r /\ is_ascii_digit c = true /\
  read_from c p (r ++ rest, advance p c) =
    if v <? 2 ^ 31 then ((TkInteger (Z.of_N v), p), (rest, after s p))
    else handle_bad_read (MBadInteger s) p (rest, after s p).
Proof.
  intros s v rest p (ds & Hn & F & B & V) E.
  assert (D : Forall (fun c => 48 <= c <= 57) s).
  { eapply Forall_impl; [|eapply numeral_chars; eauto; lia]. cbv beta. intros c (_ & X & _). lia. }
  destruct s as [|c r]; [congruence|]. exists c, r. split; [reflexivity|].
  inversion D as [|c' r' Dc Dr]; subst.
  split; [apply is_ascii_digit_spec; exact Dc|].
  unfold Lex_Model.read_from. cbn [fst snd].
  rewrite (proj2 (is_ascii_digit_spec c) Dc).
  rewrite !(proj2 (N.eqb_neq c _)) by lia. cbn [orb].
  rewrite number_prefix by exact Dr. cbn [app].
  rewrite number_stop by exact E. unfold number_token.
  rewrite (from_radix_complete _ 10 _ _ ds) by (auto; lia).
  cbn [N.mul]. rewrite N.add_0_l.
  destruct (positional 10 ds <? 2 ^ 31) eqn:X.
  - apply N.ltb_lt in X. rewrite (proj2 (N.leb_le _ _)) by lia. reflexivity.
  - apply N.ltb_ge in X. rewrite (proj2 (N.leb_gt _ _)) by lia. reflexivity.
Qed.

Lemma integer_prefix : forall base fp w s t p,
  Forall (fun c => is_ascii_digit c || is_hex_letter c = true /\ c <> 46) w ->
  consume_integer base s fp (w ++ t) p = consume_integer base (s ++ w) fp t (after w p).
Proof.
  intros base fp w. induction w as [|c w IH]; intros s t p F.
  - rewrite app_nil_r. reflexivity.
  - inversion F as [|c' w' [D Dn] F']; subst. cbn [app consume_integer].
    rewrite (proj2 (N.eqb_neq c 46)) by exact Dn.
    rewrite D, IH by exact F'. rewrite <- app_assoc. reflexivity.
Qed.
Lemma integer_stop : forall base fp s t p, word_ends t ->
  consume_integer base s fp t p = integer_token base s fp (t, p).
Proof.
  intros base fp s [|c r] p E; [reflexivity|]. cbn [word_ends] in E. cbn [consume_integer].
  pose proof (ends_word_not c E) as (E1 & E2 & E3 & _).
  apply N.eqb_neq in E1. rewrite E1, E2, E3.
  rewrite (proj2 (is_separator_spec c) E). reflexivity.
Qed.

Lemma base_of_spec : forall c base, base_of c = Some base <-> base_letter c base.
Proof.
  intros c base. unfold base_of, base_letter. cbn [In]. split.
  - intros H.
    destruct ((c =? 98) || (c =? 66)) eqn:E1; [|destruct ((c =? 100) || (c =? 68)) eqn:E2;
      [|destruct ((c =? 111) || (c =? 79)) eqn:E3; [|destruct ((c =? 120) || (c =? 88)) eqn:E4; [|discriminate H]]]].
    all: match goal with E : _ || _ = true |- _ => rewrite orb_true_iff, !N.eqb_eq in E end.
    all: assert (Hb : base = match base_of c with Some b => b | None => 0 end)
      by (unfold base_of; match goal with E : _ \/ _ |- _ => destruct E as [->| ->] end; cbn in *; congruence).
    all: match goal with E : _ \/ _ |- _ => destruct E as [->| ->] end; subst base; cbn; tauto.
  - intros H.
    repeat (destruct H as [H|H]; [apply (f_equal fst) in H as H1; apply (f_equal snd) in H; cbn [fst snd] in *; subst; reflexivity|]).
    destruct H.
Qed.

Lemma read_based : forall c base us s rest p,
  base_letter c base -> us = [] \/ us = [95] -> s <> [] ->
  Forall (fun c => is_ascii_digit c || is_hex_letter c = true /\ c <> 46 /\ c <> 95) s -> word_ends rest ->
  read_from 38 p (c :: us ++ s ++ rest, advance p 38) =
    match from_radix (2 ^ 32 - 1) base 0 s with
    | Some v => ((TkInteger (u32_as_i32 v), p), (rest, after (38 :: c :: us ++ s) p))
    | None => handle_bad_read (MBadInteger s) p (rest, after (38 :: c :: us ++ s) p)
    end.
Proof.
  intros c base us s rest p Hb Hu Hn F E.
  change (read_from 38 p (c :: us ++ s ++ rest, advance p 38))
    with (consume_integer_with_base p (c :: us ++ s ++ rest, advance p 38)).
  unfold consume_integer_with_base. rewrite (proj2 (base_of_spec c base) Hb).
  assert (F2 : Forall (fun c => is_ascii_digit c || is_hex_letter c = true /\ c <> 46) s)
    by (eapply Forall_impl; [|exact F]; cbv beta; tauto).
  assert (K : forall q, consume_integer base [] p (s ++ rest) q =
              match from_radix (2 ^ 32 - 1) base 0 s with
              | Some v => ((TkInteger (u32_as_i32 v), p), (rest, after s q))
              | None => handle_bad_read (MBadInteger s) p (rest, after s q)
              end).
  { intros q. rewrite integer_prefix by exact F2. cbn [app].
    rewrite integer_stop by exact E. unfold integer_token. destruct s; [congruence|reflexivity]. }
  destruct Hu as [->| ->].
  - cbn [app]. destruct s as [|x s']; [congruence|]. cbn [app].
    inversion F as [|x' s'' (_ & _ & X) _]; subst.
    rewrite (proj2 (N.eqb_neq x 95)) by exact X.
    specialize (K (advance (advance p 38) c)). cbn [app] in K. rewrite K. reflexivity.
  - cbn [app]. rewrite N.eqb_refl. rewrite K. reflexivity.
Qed.

Lemma base_letter_le : forall c base, base_letter c base -> 2 <= base <= 16.
Proof.
  intros c base H. unfold base_letter in H. cbn [In] in H.
  repeat (destruct H as [H|H]; [apply (f_equal snd) in H; cbn [snd] in H; lia|]). destruct H.
Qed.

Lemma text_body : forall d fp b t, d = 34 -> quoted b t -> forall s rest p,
  consume_text d s false fp (b ++ d :: rest) p = ((TkText (s ++ t), fp), (rest, after (b ++ [d]) p)).
Proof.
  intros d fp b t Hd Q. subst d. induction Q as [|c b t N1 N2 Q IH|c b t Q IH]; intros s rest p.
  - cbn [app consume_text]. rewrite app_nil_r. reflexivity.
  - cbn [app consume_text]. rewrite (proj2 (N.eqb_neq c 92) N2), (proj2 (N.eqb_neq c 34) N1).
    rewrite IH, <- app_assoc. reflexivity.
  - cbn [app consume_text]. change (92 =? 92) with true. cbv iota.
    rewrite IH, <- app_assoc. reflexivity.
Qed.

(** A body that never ends. *)
Lemma text_open : forall fp b s e p, (forall b1 b2 t, b <> b1 ++ 34 :: b2 \/ ~ quoted (if e : bool then 92 :: b1 else b1) t) ->
  exists m q, consume_text 34 s e fp b p = ((TkBad m, fp), q).
Proof.
  induction b as [|c r IH]; intros s e p H; cbn [consume_text].
  - eexists _, _. reflexivity.
  - destruct e; cbv iota.
    + apply IH. intros b1 b2 t. destruct (H (c :: b1) b2 (c :: t)) as [X|X].
      * left. intros E. apply X. rewrite E. reflexivity.
      * right. intros Q. apply X. constructor. exact Q.
    + destruct (c =? 92) eqn:E1; [apply N.eqb_eq in E1; subst c|].
      * apply IH. intros b1 b2 t. destruct (H (92 :: b1) b2 t) as [X|X].
        -- left. intros E. apply X. rewrite E. reflexivity.
        -- right. exact X.
      * destruct (c =? 34) eqn:E2; [apply N.eqb_eq in E2; subst c|].
        -- exfalso. destruct (H [] r []) as [X|X]; apply X; [reflexivity|constructor].
        -- apply N.eqb_neq in E1, E2. apply IH. intros b1 b2 t. destruct (H (c :: b1) b2 (c :: t)) as [X|X].
           ++ left. intros E. apply X. rewrite E. reflexivity.
           ++ right. intros Q. apply X. constructor; auto.
Qed.

Lemma escape_quoted : forall t, quoted (escape t) t.
Proof.
  induction t as [|c t IH]; [constructor|]. unfold escape in *. cbn [flat_map].
  destruct ((c =? 34) || (c =? 92)) eqn:E.
  - cbn [app]. apply q_escaped. exact IH.
  - cbn [app]. rewrite orb_false_iff, !N.eqb_neq in E. apply q_plain; tauto.
Qed.

Lemma symbol_prefix : forall fp w s t p, Forall (word_char alnum) w ->
  consume_symbol s fp (w ++ t) p = consume_symbol (s ++ w) fp t (after w p).
Proof.
  intros fp w. induction w as [|c w IH]; intros s t p F.
  - rewrite app_nil_r. reflexivity.
  - inversion F as [|c' w' D F']; subst. cbn [app Lex_Model.consume_symbol].
    rewrite (proj2 (is_word_spec c) D), IH by exact F'. rewrite <- app_assoc. reflexivity.
Qed.
Lemma symbol_stop : forall fp s t p, word_ends t ->
  consume_symbol s fp t p = symbol_token s None fp (t, p).
Proof.
  intros fp s [|c r] p E; [reflexivity|]. cbn [word_ends] in E. cbn [Lex_Model.consume_symbol].
  rewrite (ends_not_word c E), (proj2 (is_separator_spec c) E). reflexivity.
Qed.
Lemma symbol_annotated : forall fp s ty t p,
  consume_symbol s fp (annotation_of ty :: t) p = symbol_token s (Some ty) fp (t, advance p (annotation_of ty)).
Proof.
  intros fp s ty t p. cbn [Lex_Model.consume_symbol].
  assert (W : is_word (annotation_of ty) = false).
  { destruct (is_word (annotation_of ty)) eqn:W; [|reflexivity].
    apply is_word_ascii in W; destruct ty; cbn in *; lia. }
  rewrite W. destruct ty; reflexivity.
Qed.

Lemma label_prefix : forall fp w s t p, Forall (word_char alnum) w ->
  label_rest s fp (w ++ t) p = label_rest (s ++ w) fp t (after w p).
Proof.
  intros fp w. induction w as [|c w IH]; intros s t p F.
  - rewrite app_nil_r. reflexivity.
  - inversion F as [|c' w' D F']; subst. cbn [app Lex_Model.label_rest].
    rewrite (proj2 (is_word_spec c) D), IH by exact F'. rewrite <- app_assoc. reflexivity.
Qed.
Lemma label_stop : forall fp s t p, word_ends t ->
  label_rest s fp t p = ((TkLabel s, fp), (t, p)).
Proof.
  intros fp s [|c r] p E; [reflexivity|]. cbn [word_ends] in E. cbn [Lex_Model.label_rest].
  rewrite (ends_not_word c E), (proj2 (is_separator_spec c) E). reflexivity.
Qed.

(** A word is read by [consume_symbol]. *)
Lemma read_word : forall c fp i, is_word c = true -> ~ 48 <= c <= 57 ->
  read_from c fp i = consume_symbol [c] fp (fst i) (snd i).
Proof.
  intros c fp i W D. unfold Lex_Model.read_from. rewrite W.
  destruct (is_ascii_digit c) eqn:A; [apply is_ascii_digit_spec in A; contradiction|].
  assert (K : forall k, k < 128 -> k <> 95 -> ~ 48 <= k <= 57 -> ~ 65 <= k <= 90 -> ~ 97 <= k <= 122 -> c =? k = false).
  { intros k H1 H2 H3 H4 H5. apply N.eqb_neq. intros ->. apply is_word_ascii in W; lia. }
  rewrite !K by lia. cbn [orb]. reflexivity.
Qed.

Lemma keyword_in : forall s k, keyword s = Some k -> In k (map snd keywords).
Proof.
  intros s k H. unfold keyword in H. destruct (find _ keywords) as [[a b]|] eqn:E; [|discriminate H].
  cbn [option_map snd] in H. assert (b = k) by congruence. subst b.
  apply find_some in E. destruct E as [I _]. apply (in_map snd) in I. exact I.
Qed.

Definition plain_token (t : token) : Prop :=
  match t with TkEof | TkEol | TkBad _ | TkSymbol _ | TkInteger _ | TkText _ | TkDouble _ | TkLabel _ => False | _ => True end.
Lemma keyword_plain : forall s k, keyword s = Some k -> plain_token k.
Proof.
  intros s k H. apply keyword_in in H. unfold keywords in H. cbn [map snd In] in H.
  repeat (destruct H as [<-|H]; [exact Logic.I|]). destruct H.
Qed.

Lemma word_not_rem : forall w, flat_map uc w <> u "REM" -> ustr_eqb (flat_map uc w) (u "REM") = false.
Proof. intros w H. apply ustr_eqb_neq. exact H. Qed.

Lemma word_first : forall w, word alnum w ->
  exists c r, w = c :: r /\ is_word c = true /\ ~ 48 <= c <= 57 /\ Forall (word_char alnum) r.
Proof.
  intros [|c r] [F D]; [destruct D|]. inversion F; subst.
  exists c, r. repeat split; auto. apply is_word_spec; assumption.
Qed.

Lemma word_not_blank : forall c, is_word c = true -> is_space c = false.
Proof.
  intros c W. destruct (is_space c) eqn:E; [|reflexivity].
  apply is_space_spec in E. assert (ends_word c) as X by (left; exact E).
  apply ends_not_word in X. congruence.
Qed.

Lemma word_not_hash : forall c, is_word c = true -> c <> 35.
Proof. intros c W ->. apply is_word_ascii in W; lia. Qed.

Lemma spells_read : forall tok w rest p, spells alnum numeric uc tok w rest ->
  exists c r, w = c :: r /\ is_space c = false /\ c <> 35 /\
    read_from c p (r ++ rest, advance p c) = ((tok, p), (rest, after w p)).
Proof.
  intros tok w rest p H. destruct H as
    [t w rest I|rest E|rest E|w z rest L E|a b rest F Ha Hb E|b t rest Q|w c r rest Ew F Nc E
    |w rest (W & K & R) E|w t rest (W & K & R)|w k rest W K E|w t k rest W K].
  - unfold punctuation in I. cbn [In] in I.
    repeat (destruct I as [I|I]; [apply (f_equal snd) in I as I2; apply (f_equal fst) in I; cbn [fst snd] in I, I2; subst t w;
      do 2 eexists; split; [reflexivity|]; split; [reflexivity|]; split; [discriminate|];
      cbn [app]; reflexivity|]).
    destruct I.
  - exists 60, []. repeat split; try discriminate. cbn [app].
    change (read_from 60 p (rest, advance p 60)) with (consume_operator 60 p (rest, advance p 60)).
    unfold consume_operator. destruct rest as [|c r]; [reflexivity|].
    change (60 =? 60) with true. cbv iota.
    rewrite !(proj2 (N.eqb_neq c _)) by (intros ->; apply E; vm_compute; tauto). reflexivity.
  - exists 62, []. repeat split; try discriminate. cbn [app].
    change (read_from 62 p (rest, advance p 62)) with (consume_operator 62 p (rest, advance p 62)).
    unfold consume_operator. destruct rest as [|c r]; [reflexivity|].
    change (62 =? 60) with false. cbv iota.
    rewrite !(proj2 (N.eqb_neq c _)) by (intros ->; apply E; vm_compute; tauto). reflexivity.
  - destruct L as [s v Hn Lt|c base us s v z Hb Hu Hn Lt Rz Mz].
    + destruct (read_decimal s v rest p Hn E) as (c & r & -> & D & R).
      apply is_ascii_digit_spec in D.
      exists c, r. split; [reflexivity|]. split.
      { destruct (is_space c) eqn:S1; [|reflexivity]. apply is_space_spec in S1.
        unfold blank in S1. cbn [In] in S1. lia. }
      split; [lia|]. rewrite R. apply N.ltb_lt in Lt. rewrite Lt. reflexivity.
    + exists 38, (c :: us ++ s). split; [reflexivity|]. split; [reflexivity|]. split; [discriminate|].
      destruct Hn as (ds & Hs & F & B & V).
      pose proof (base_letter_le _ _ Hb) as Lb.
      replace ((c :: us ++ s) ++ rest) with (c :: us ++ s ++ rest) by (cbn [app]; rewrite <- app_assoc; reflexivity).
      assert (FC : Forall (fun c => is_ascii_digit c || is_hex_letter c = true /\ c <> 46 /\ c <> 95) s).
      { eapply Forall_impl; [|eapply (numeral_chars base); [lia|exact F|exact B]]. cbv beta. tauto. }
      rewrite (read_based c base us s rest p) by auto.
      rewrite (from_radix_complete _ base _ _ ds) by (auto; lia).
      cbn [N.mul]. rewrite N.add_0_l.
      destruct s as [|x s']; [congruence|].
      rewrite (proj2 (N.leb_le _ _)) by lia.
      rewrite <- V. rewrite <- (u32_as_i32_unique v z) by auto. reflexivity.
  - destruct a as [|c a]; [congruence|].
    exists c, (a ++ 46 :: b).
    cbn [app] in F. inversion F as [|c' l' Dc F']; subst. apply Forall_app in F'. destruct F' as [Fa Fb].
    split; [reflexivity|]. split.
    { destruct (is_space c) eqn:S1; [|reflexivity]. apply is_space_spec in S1.
      unfold blank in S1. cbn [In] in S1. lia. }
    split; [lia|].
    unfold Lex_Model.read_from. cbn [fst snd].
    rewrite (proj2 (is_ascii_digit_spec c) Dc).
    rewrite !(proj2 (N.eqb_neq c _)) by lia. cbn [orb].
    replace ((a ++ 46 :: b) ++ rest) with (a ++ (46 :: b ++ rest)) by (rewrite <- app_assoc; reflexivity).
    rewrite number_prefix by exact Fa. cbn [consume_number]. change (46 =? 46) with true. cbv iota.
    rewrite number_prefix by exact Fb. rewrite number_stop by exact E. unfold number_token.
    assert (EQ : (([c] ++ a) ++ [46]) ++ b = (c :: a) ++ 46 :: b) by (rewrite <- !app_assoc; reflexivity).
    rewrite EQ.
    assert (LD : last ((c :: a) ++ 46 :: b) 0 =? 46 = false).
    { destruct (exists_last Hb) as (b' & x & Ex). subst b.
      replace ((c :: a) ++ 46 :: b' ++ [x]) with (((c :: a) ++ 46 :: b') ++ [x]) by (rewrite <- app_assoc; reflexivity).
      rewrite last_last. apply N.eqb_neq.
      apply Forall_app in Fb. destruct Fb as [_ Fx]. inversion Fx; subst. lia. }
    rewrite LD. f_equal. f_equal.
    change ((c :: a) ++ 46 :: b) with (c :: a ++ 46 :: b).
    rewrite after_cons, after_app, after_cons. reflexivity.
  - exists 34, (b ++ [34]). split; [reflexivity|]. split; [reflexivity|]. split; [discriminate|].
    rewrite <- app_assoc. cbn [app].
    change (read_from 34 p (b ++ 34 :: rest, advance p 34)) with (consume_text 34 [] false p (b ++ 34 :: rest) (advance p 34)).
    rewrite (text_body 34 p b t) by auto. reflexivity.
  - subst w. exists 64, (c :: r). split; [reflexivity|]. split; [reflexivity|]. split; [discriminate|].
    change (read_from 64 p ((c :: r) ++ rest, advance p 64)) with (consume_label p (c :: r ++ rest, advance p 64)).
    unfold Lex_Model.consume_label. inversion F as [|c' r' Wc F']; subst.
    rewrite (proj2 (is_word_spec c) Wc), Nc. cbn [andb negb].
    rewrite label_prefix by exact F'. rewrite label_stop by exact E. reflexivity.
  - destruct (word_first w W) as (c & r & -> & Wc & Dc & F). exists c, r. split; [reflexivity|].
    split; [apply word_not_blank; exact Wc|]. split; [apply word_not_hash; exact Wc|].
    rewrite read_word by assumption. cbn [fst snd]. rewrite symbol_prefix by exact F.
    rewrite symbol_stop by exact E. unfold Lex_Model.symbol_token.
    change ([c] ++ r) with (c :: r). rewrite word_not_rem by exact R. rewrite K. reflexivity.
  - destruct (word_first w W) as (c & r & -> & Wc & Dc & F). exists c, (r ++ [annotation_of t]). split; [reflexivity|].
    split; [apply word_not_blank; exact Wc|]. split; [apply word_not_hash; exact Wc|].
    rewrite read_word by assumption. cbn [fst snd]. rewrite <- app_assoc. rewrite symbol_prefix by exact F.
    cbn [app]. rewrite symbol_annotated. unfold Lex_Model.symbol_token.
    rewrite word_not_rem by exact R. rewrite K.
    f_equal. f_equal. rewrite after_cons, after_app. reflexivity.
  - destruct (word_first w W) as (c & r & -> & Wc & Dc & F). exists c, r. split; [reflexivity|].
    split; [apply word_not_blank; exact Wc|]. split; [apply word_not_hash; exact Wc|].
    rewrite read_word by assumption. cbn [fst snd]. rewrite symbol_prefix by exact F.
    rewrite symbol_stop by exact E. unfold Lex_Model.symbol_token.
    change ([c] ++ r) with (c :: r).
    rewrite word_not_rem; [rewrite K; reflexivity|].
    intros X. rewrite X in K. vm_compute in K. discriminate K.
  - destruct (word_first w W) as (c & r & -> & Wc & Dc & F). exists c, (r ++ [annotation_of t]). split; [reflexivity|].
    split; [apply word_not_blank; exact Wc|]. split; [apply word_not_hash; exact Wc|].
    rewrite read_word by assumption. cbn [fst snd]. rewrite <- app_assoc. rewrite symbol_prefix by exact F.
    cbn [app]. rewrite symbol_annotated. unfold Lex_Model.symbol_token.
    rewrite word_not_rem; [rewrite K|].
    + f_equal. f_equal. rewrite after_cons, after_app. reflexivity.
    + intros X. rewrite X in K. vm_compute in K. discriminate K.
Qed.

Lemma spells_token : forall tok w rest, spells alnum numeric uc tok w rest ->
  tok <> TkEof /\ forall m, tok <> TkBad m.
Proof.
  intros tok w rest H. destruct H as
    [t w rest I|rest E|rest E|w z rest L E|a b rest F Ha Hb E|b t rest Q|w c r rest Ew F Nc E
    |w rest (W & K & R) E|w t rest (W & K & R)|w k rest W K E|w t k rest W K];
    try (split; [discriminate|intros; discriminate]).
  - unfold punctuation in I. cbn [In] in I.
    repeat (destruct I as [I|I]; [apply (f_equal fst) in I; cbn [fst] in I; subst t; split; [discriminate|intros; discriminate]|]).
    destruct I.
  - apply keyword_plain in K. destruct k; cbn in K; try (split; [discriminate|intros; discriminate]); destruct K.
  - apply keyword_plain in K. destruct k; cbn in K; try (split; [discriminate|intros; discriminate]); destruct K.
Qed.

Lemma comment_read : forall cs rest p, comment_start alnum uc cs rest ->
  exists c r, cs = c :: r /\ is_space c = false /\ c <> 35 /\
    read_from c p (r ++ rest, advance p c) = consume_rest_of_line rest (after cs p).
Proof.
  intros cs rest p H. destruct H as [rest|w rest W R E|w t rest W R].
  - exists 39, []. repeat split; try discriminate.
  - destruct (word_first w W) as (c & r & -> & Wc & Dc & F). exists c, r. split; [reflexivity|].
    split; [apply word_not_blank; exact Wc|]. split; [apply word_not_hash; exact Wc|].
    rewrite read_word by assumption. cbn [fst snd]. rewrite symbol_prefix by exact F.
    rewrite symbol_stop by exact E. unfold Lex_Model.symbol_token.
    change ([c] ++ r) with (c :: r). rewrite R, ustr_eqb_refl. reflexivity.
  - destruct (word_first w W) as (c & r & -> & Wc & Dc & F). exists c, (r ++ [annotation_of t]). split; [reflexivity|].
    split; [apply word_not_blank; exact Wc|]. split; [apply word_not_hash; exact Wc|].
    rewrite read_word by assumption. cbn [fst snd]. rewrite <- app_assoc. rewrite symbol_prefix by exact F.
    cbn [app]. rewrite symbol_annotated. unfold Lex_Model.symbol_token.
    change ([c] ++ r) with (c :: r). rewrite R, ustr_eqb_refl. cbn [fst snd]. f_equal.
    rewrite after_cons, after_app. reflexivity.
Qed.

Lemma rest_of_line_end : forall body p, ~ In 10 body ->
  consume_rest_of_line body p = ((TkEof, after body p), ([], after body p)).
Proof.
  induction body as [|c r IH]; intros p H; [reflexivity|]. cbn [consume_rest_of_line].
  rewrite (proj2 (N.eqb_neq c 10)) by (intros ->; apply H; left; reflexivity).
  rewrite IH by (intros X; apply H; right; exact X). reflexivity.
Qed.
Lemma rest_of_line_eol : forall body rest p, ~ In 10 body ->
  consume_rest_of_line (body ++ 10 :: rest) p =
  ((TkEol, after body p), (rest, after (body ++ [10]) p)).
Proof.
  induction body as [|c r IH]; intros rest p H; [reflexivity|]. cbn [app consume_rest_of_line].
  rewrite (proj2 (N.eqb_neq c 10)) by (intros ->; apply H; left; reflexivity).
  rewrite IH by (intros X; apply H; right; exact X). reflexivity.
Qed.

Lemma read_token_blanks : forall sp t p, Forall blank sp ->
  read_token (sp ++ t) p = read_token t (after sp p).
Proof.
  induction sp as [|c sp IH]; intros t p F; [reflexivity|]. inversion F as [|c' sp' B F']; subst.
  cbn [app Lex_Model.read_token]. rewrite (proj2 (is_space_spec c) B). apply IH. exact F'.
Qed.

Lemma read_no_hash : forall t p, starts_with_hash t = false -> read (t, p) = read_token t p.
Proof.
  intros [|c r] p H; [reflexivity|]. unfold Lex_Model.read.
  destruct (c =? 35) eqn:E; [|rewrite andb_false_r; reflexivity].
  apply N.eqb_eq in E. subst c. discriminate H.
Qed.

Lemma starts_with_hash_spec : forall c r, c <> 35 -> starts_with_hash (c :: r) = false.
Proof.
  intros c r H. destruct (starts_with_hash (c :: r)) eqn:E; [|reflexivity].
  exfalso. apply H. unfold starts_with_hash in E.
  repeat match goal with H : match ?x with _ => _ end = true |- _ => destruct x; try discriminate H end.
  reflexivity.
Qed.

Lemma blanks_no_hash : forall sp t, Forall blank sp -> starts_with_hash t = false ->
  starts_with_hash (sp ++ t) = false.
Proof.
  intros [|c sp] t F H; [exact H|]. inversion F as [|c' sp' B F']; subst. cbn [app].
  apply starts_with_hash_spec. intros ->. unfold blank in B. cbn [In] in B. lia.
Qed.

Lemma tokenised_read_all : forall t p l e, tokenised alnum numeric uc t p l e ->
  forall fuel, (length t < fuel)%nat -> read_all fuel (t, p) = (l, e).
Proof.
  intros t p l e H.
  induction H as [sp p B|sp cs body p B C Nb|sp cs body rest p l e B C Nb H IH|sp w tok rest p l e B SP H IH];
    intros [|fuel] L; try lia; cbn [Lex_Model.read_all].
  - rewrite read_no_hash.
    2:{ rewrite <- (app_nil_r sp). apply blanks_no_hash; auto. }
    rewrite <- (app_nil_r sp) at 1. rewrite read_token_blanks by exact B. reflexivity.
  - destruct (comment_read cs body (after sp p) C) as (c & r & -> & Sc & Hc & R).
    rewrite read_no_hash by (apply blanks_no_hash; [exact B|apply starts_with_hash_spec; exact Hc]).
    rewrite read_token_blanks by exact B. cbn [app Lex_Model.read_token]. rewrite Sc, R.
    rewrite rest_of_line_end by exact Nb. f_equal.
    change (c :: r ++ body) with ((c :: r) ++ body). rewrite !after_app. reflexivity.
  - destruct (comment_read cs (body ++ 10 :: rest) (after sp p) C) as (c & r & -> & Sc & Hc & R).
    rewrite read_no_hash by (apply blanks_no_hash; [exact B|apply starts_with_hash_spec; exact Hc]).
    rewrite read_token_blanks by exact B. cbn [app Lex_Model.read_token]. rewrite Sc, R.
    rewrite rest_of_line_eol by exact Nb.
    assert (P1 : after body (after (c :: r) (after sp p)) = after (sp ++ (c :: r) ++ body) p)
      by (rewrite !after_app; reflexivity).
    assert (P2 : after (body ++ [10]) (after (c :: r) (after sp p)) = after (sp ++ (c :: r) ++ body ++ [10]) p)
      by (rewrite !after_app; reflexivity).
    rewrite P1, P2, IH; [reflexivity|].
    rewrite !app_length in L. cbn [length] in L. lia.
  - destruct (spells_read tok w rest (after sp p) SP) as (c & r & -> & Sc & Hc & R).
    rewrite read_no_hash by (apply blanks_no_hash; [exact B|apply starts_with_hash_spec; exact Hc]).
    rewrite read_token_blanks by exact B. cbn [app Lex_Model.read_token]. rewrite Sc, R.
    rewrite <- after_app.
    assert (X : read_all fuel (rest, after (sp ++ c :: r) p) = (l, e)).
    { apply IH. rewrite !app_length in L. cbn [length] in L. lia. }
    destruct (spells_token _ _ _ SP) as [NE NB].
    destruct tok; try (exfalso; apply NE; reflexivity); rewrite X; reflexivity.
Qed.

(** ** Only spellings are read *)

Definition good (t : token) : Prop := forall m, t <> TkBad m.

Lemma bad_not_good : forall m fp i tok q i', handle_bad_read m fp i = ((tok, q), i') -> good tok -> False.
Proof.
  intros m fp i tok q i' H G. unfold handle_bad_read in H.
  apply (f_equal (fun x => fst (fst x))) in H. cbn [fst] in H. apply (G m). congruence.
Qed.

Lemma digits_numeral : forall limit base s n, 1 <= base <= 16 -> s <> [] ->
  from_radix limit base 0 s = Some n -> numeral base s n /\ n <= limit.
Proof.
  intros limit base s n Hb Hs H. apply from_radix_some in H; [|lia].
  destruct H as (ds & F & B & V & L). split; [|apply L; lia].
  exists ds. repeat split; auto; lia.
Qed.

Definition number_state (s : ustr) (dot : bool) : Prop :=
  if dot then exists a b, s = a ++ 46 :: b /\ a <> [] /\ Forall (fun c => 48 <= c <= 57) (a ++ b)
  else s <> [] /\ Forall (fun c => 48 <= c <= 57) s.

Lemma number_token_conv : forall s dot fp i tok q i',
  number_token s dot fp i = ((tok, q), i') -> good tok -> number_state s dot -> word_ends (fst i) ->
  q = fp /\ i' = i /\ spells alnum numeric uc tok s (fst i).
Proof.
  intros s dot fp i tok q i' H G I E. unfold number_token in H. destruct dot; cbn [number_state] in I.
  - destruct I as (a & b & -> & Ha & F).
    destruct (last (a ++ 46 :: b) 0 =? 46) eqn:L; [exfalso; eapply bad_not_good; eauto|].
    assert (Hb : b <> []).
    { intros ->. rewrite last_last in L. discriminate L. }
    apply pair_equal_spec in H. destruct H as [H <-].
    apply pair_equal_spec in H. destruct H as [<- <-].
    repeat split. apply sp_double; auto.
  - destruct I as [Hs F].
    destruct (from_radix (2 ^ 31 - 1) 10 0 s) as [n|] eqn:R; [|exfalso; eapply bad_not_good; eauto].
    apply digits_numeral in R; [|lia|exact Hs]. destruct R as [R L].
    apply pair_equal_spec in H. destruct H as [H <-].
    apply pair_equal_spec in H. destruct H as [<- <-].
    repeat split. apply sp_integer; [|exact E]. apply il_decimal; [exact R|lia].
Qed.

Lemma number_conv : forall fp t s dot p tok q t' p',
  consume_number s dot fp t p = ((tok, q), (t', p')) -> good tok -> number_state s dot ->
  exists w, t = w ++ t' /\ p' = after w p /\ q = fp /\ spells alnum numeric uc tok (s ++ w) t'.
Proof.
  intros fp t. induction t as [|c r IH]; intros s dot p tok q t' p' H G I; cbn [consume_number] in H.
  - apply number_token_conv in H; auto; [|exact Logic.I]. destruct H as (-> & H & SP).
    apply pair_equal_spec in H. destruct H as [-> ->].
    exists []. rewrite (app_nil_r s). cbn [fst] in *. auto.
  - destruct (c =? 46) eqn:C1.
    + apply N.eqb_eq in C1. subst c. destruct dot; [exfalso; eapply bad_not_good; eauto|].
      apply IH in H; auto.
      * destruct H as (w & -> & -> & -> & SP). exists (46 :: w). rewrite <- app_assoc in SP.
        repeat split; auto.
      * destruct I as [Hs F]. exists s, []. rewrite app_nil_r. auto.
    + destruct (is_ascii_digit c) eqn:C2.
      * apply is_ascii_digit_spec in C2.
        apply IH in H; auto.
        -- destruct H as (w & -> & -> & -> & SP). exists (c :: w). rewrite <- app_assoc in SP.
           repeat split; auto.
        -- destruct dot; cbn [number_state] in *.
           ++ destruct I as (a & b & -> & Ha & F). exists a, (b ++ [c]).
              rewrite <- app_assoc. repeat split; auto. rewrite app_assoc. apply Forall_app; split; auto.
           ++ destruct I as [Hs F]. split; [destruct s; discriminate|]. apply Forall_app; split; auto.
      * destruct (is_separator c) eqn:C3; [|exfalso; eapply bad_not_good; eauto].
        apply is_separator_spec in C3.
        apply number_token_conv in H; auto. destruct H as (-> & H & SP).
        apply pair_equal_spec in H. destruct H as [-> ->].
        exists []. rewrite (app_nil_r s). cbn [fst] in *. auto.
Qed.

Lemma integer_conv : forall base c us fp t s p tok q t' p',
  base_letter c base -> us = [] \/ us = [95] ->
  consume_integer base s fp t p = ((tok, q), (t', p')) -> good tok ->
  exists w, t = w ++ t' /\ p' = after w p /\ q = fp /\
    spells alnum numeric uc tok (38 :: c :: us ++ s ++ w) t'.
Proof.
  intros base c us fp t s p tok q t' p' Hb Hu. revert s p.
  assert (TC : forall s i, integer_token base s fp i = ((tok, q), (t', p')) -> good tok -> word_ends (fst i) ->
          q = fp /\ i = (t', p') /\ spells alnum numeric uc tok (38 :: c :: us ++ s) t').
  { intros s i H G E. unfold integer_token in H. destruct s as [|x s']; [exfalso; eapply bad_not_good; eauto|].
    destruct (from_radix _ _ _ _) as [n|] eqn:R; [|exfalso; eapply bad_not_good; eauto].
    pose proof (base_letter_le _ _ Hb) as LB.
    apply digits_numeral in R; [|lia|discriminate]. destruct R as [R L].
    apply pair_equal_spec in H. destruct H as [H ->].
    apply pair_equal_spec in H. destruct H as [<- <-].
    split; [reflexivity|]. split; [reflexivity|]. cbn [fst] in E. apply sp_integer; [|exact E].
    assert (n < 2 ^ 32) as Ln by lia. pose proof (u32_as_i32_spec n Ln) as [U1 U2].
    eapply il_based; eauto. }
  induction t as [|x r IH]; intros s p H G; cbn [consume_integer] in H.
  - apply TC in H; auto; [|exact Logic.I]. destruct H as (-> & H & SP).
    apply pair_equal_spec in H. destruct H as [<- <-]. exists []. rewrite (app_nil_r s). cbn [fst] in *. auto.
  - destruct (x =? 46) eqn:C1; [exfalso; eapply bad_not_good; eauto|].
    destruct (is_ascii_digit x || is_hex_letter x) eqn:C2.
    + apply IH in H; auto. destruct H as (w & -> & -> & -> & SP). exists (x :: w).
      rewrite <- app_assoc in SP. repeat split; auto.
    + destruct (is_separator x) eqn:C3; [|exfalso; eapply bad_not_good; eauto].
      apply is_separator_spec in C3. apply TC in H; auto. destruct H as (-> & H & SP).
      apply pair_equal_spec in H. destruct H as [<- <-]. exists []. rewrite (app_nil_r s). cbn [fst] in *. auto.
Qed.

Lemma text_conv : forall fp t s e p tok q t' p',
  consume_text 34 s e fp t p = ((tok, q), (t', p')) -> good tok ->
  exists b x, q = fp /\ tok = TkText (s ++ x) /\ t = b ++ 34 :: t' /\ p' = after (b ++ [34]) p /\
    quoted (if e then 92 :: b else b) x.
Proof.
  intros fp t. induction t as [|c r IH]; intros s e p tok q t' p' H G; cbn [consume_text] in H.
  - exfalso; eapply bad_not_good; eauto.
  - destruct e.
    + apply IH in H; auto. destruct H as (b & x & -> & -> & -> & -> & Q).
      exists (c :: b), (c :: x). rewrite <- app_assoc. repeat split; auto. apply q_escaped. exact Q.
    + destruct (c =? 92) eqn:C1; [|destruct (c =? 34) eqn:C2].
      * apply N.eqb_eq in C1. subst c.
        apply IH in H; auto. destruct H as (b & x & -> & -> & -> & -> & Q).
        exists (92 :: b), x. repeat split; auto.
      * apply N.eqb_eq in C2. subst c.
        apply pair_equal_spec in H. destruct H as [H1 H2].
        apply pair_equal_spec in H1. destruct H1 as [<- <-].
        apply pair_equal_spec in H2. destruct H2 as [<- <-].
        exists [], []. rewrite (app_nil_r s). repeat split; auto. constructor.
      * apply N.eqb_neq in C1, C2.
        apply IH in H; auto. destruct H as (b & x & -> & -> & -> & -> & Q).
        exists (c :: b), (c :: x). rewrite <- app_assoc. repeat split; auto. apply q_plain; auto.
Qed.

Lemma annotation_spec : forall c ty, annotation c = Some ty -> c = annotation_of ty.
Proof.
  intros c ty H. unfold annotation in H.
  repeat match goal with
  | H : (if ?c =? ?k then _ else _) = Some _ |- _ =>
      let E := fresh in destruct (c =? k) eqn:E; [apply N.eqb_eq in E; subst; assert (X := f_equal (fun o => match o with Some y => y | None => TText end) H); cbn in X; subst ty; reflexivity|]
  end. discriminate H.
Qed.

Lemma symbol_conv : forall fp t s p tok q i',
  consume_symbol s fp t p = ((tok, q), i') -> good tok ->
  exists w sfx t1 v, t = w ++ sfx ++ t1 /\ Forall (word_char alnum) w /\
    symbol_token (s ++ w) v fp (t1, after (w ++ sfx) p) = ((tok, q), i') /\
    match v with None => sfx = [] /\ word_ends t1 | Some ty => sfx = [annotation_of ty] end.
Proof.
  intros fp t. induction t as [|c r IH]; intros s p tok q i' H G; cbn [Lex_Model.consume_symbol] in H.
  - exists [], [], [], None. rewrite !app_nil_r. repeat split; auto. 
  - destruct (is_word c) eqn:C1.
    + apply IH in H; auto. destruct H as (w & sfx & t1 & v & -> & F & H & V).
      exists (c :: w), sfx, t1, v. rewrite <- app_assoc in H. cbn [app] in *. repeat split; auto.
      constructor; auto. apply is_word_spec; exact C1.
    + destruct (is_separator c) eqn:C2.
      * exists [], [], (c :: r), None. rewrite app_nil_r. repeat split; auto. cbn [word_ends].
        apply is_separator_spec; exact C2.
      * destruct (annotation c) as [ty|] eqn:C3; [|exfalso; eapply bad_not_good; eauto].
        apply annotation_spec in C3. subst c.
        exists [], [annotation_of ty], r, (Some ty). rewrite app_nil_r. repeat split; auto.
Qed.

Lemma label_conv : forall fp t s p tok q t' p',
  label_rest s fp t p = ((tok, q), (t', p')) -> good tok ->
  exists w, t = w ++ t' /\ p' = after w p /\ q = fp /\ tok = TkLabel (s ++ w) /\
    Forall (word_char alnum) w /\ word_ends t'.
Proof.
  intros fp t. induction t as [|c r IH]; intros s p tok q t' p' H G; cbn [Lex_Model.label_rest] in H.
  - apply pair_equal_spec in H. destruct H as [H1 H2].
    apply pair_equal_spec in H1. destruct H1 as [<- <-].
    apply pair_equal_spec in H2. destruct H2 as [<- <-].
    exists []. rewrite (app_nil_r s). repeat split; auto.
  - destruct (is_word c) eqn:C1.
    + apply IH in H; auto. destruct H as (w & -> & -> & -> & -> & F & E).
      exists (c :: w). rewrite <- app_assoc. repeat split; auto. constructor; auto. apply is_word_spec; exact C1.
    + destruct (is_separator c) eqn:C2; [|exfalso; eapply bad_not_good; eauto].
      apply pair_equal_spec in H. destruct H as [H1 H2].
      apply pair_equal_spec in H1. destruct H1 as [<- <-].
      apply pair_equal_spec in H2. destruct H2 as [<- <-].
      exists []. rewrite (app_nil_r s). repeat split; auto. apply is_separator_spec; exact C2.
Qed.

(** What one read from the character [c] means. *)
Lemma read_from_conv : forall c fp r p tok q t' p',
  read_from c fp (r, p) = ((tok, q), (t', p')) -> good tok ->
  (exists w, r = w ++ t' /\ p' = after w p /\ q = fp /\ spells alnum numeric uc tok (c :: w) t') \/
  (exists cs rest, r = cs ++ rest /\ comment_start alnum uc (c :: cs) rest /\
     consume_rest_of_line rest (after cs p) = ((tok, q), (t', p'))).
Proof.
  intros c fp r p tok q t' p' H G. unfold Lex_Model.read_from in H. cbn [fst snd] in H.
  assert (SIMPLE : forall k, ((k, fp), (r, p)) = ((tok, q), (t', p')) -> In (k, [c]) punctuation ->
     exists w, r = w ++ t' /\ p' = after w p /\ q = fp /\ spells alnum numeric uc tok (c :: w) t').
  { intros k Hk I. apply pair_equal_spec in Hk. destruct Hk as [H1 H2].
    apply pair_equal_spec in H1. destruct H1 as [<- <-].
    apply pair_equal_spec in H2. destruct H2 as [<- <-].
    exists []. repeat split. apply sp_punct. exact I. }
  destruct ((c =? 10) || (c =? 58)) eqn:C0.
  { left. rewrite orb_true_iff, !N.eqb_eq in C0. destruct C0 as [->| ->]; (eapply SIMPLE; [exact H|vm_compute; tauto]). }
  destruct (c =? 39) eqn:C1; [apply N.eqb_eq in C1; subst c|].
  { right. exists [], r. repeat split; auto. constructor. }
  destruct (c =? 34) eqn:C2; [apply N.eqb_eq in C2; subst c|].
  { left. apply text_conv in H; auto. destruct H as (b & x & -> & -> & -> & -> & Q).
    exists (b ++ [34]). rewrite <- app_assoc. repeat split. apply sp_text. exact Q. }
  destruct (c =? 59) eqn:C3; [apply N.eqb_eq in C3; subst c; left; eapply SIMPLE; [exact H|vm_compute; tauto]|].
  destruct (c =? 44) eqn:C4; [apply N.eqb_eq in C4; subst c; left; eapply SIMPLE; [exact H|vm_compute; tauto]|].
  destruct (c =? 40) eqn:C5; [apply N.eqb_eq in C5; subst c; left; eapply SIMPLE; [exact H|vm_compute; tauto]|].
  destruct (c =? 41) eqn:C6; [apply N.eqb_eq in C6; subst c; left; eapply SIMPLE; [exact H|vm_compute; tauto]|].
  destruct (c =? 43) eqn:C7; [apply N.eqb_eq in C7; subst c; left; eapply SIMPLE; [exact H|vm_compute; tauto]|].
  destruct (c =? 45) eqn:C8; [apply N.eqb_eq in C8; subst c; left; eapply SIMPLE; [exact H|vm_compute; tauto]|].
  destruct (c =? 42) eqn:C9; [apply N.eqb_eq in C9; subst c; left; eapply SIMPLE; [exact H|vm_compute; tauto]|].
  destruct (c =? 47) eqn:C10; [apply N.eqb_eq in C10; subst c; left; eapply SIMPLE; [exact H|vm_compute; tauto]|].
  destruct (c =? 94) eqn:C11; [apply N.eqb_eq in C11; subst c; left; eapply SIMPLE; [exact H|vm_compute; tauto]|].
  destruct (c =? 61) eqn:C12; [apply N.eqb_eq in C12; subst c; left; eapply SIMPLE; [exact H|vm_compute; tauto]|].
  destruct ((c =? 60) || (c =? 62)) eqn:C13.
  { left. rewrite orb_true_iff, !N.eqb_eq in C13.
    assert (TWO : forall k x y, ((k, fp), (y, advance p x)) = ((tok, q), (t', p')) -> r = x :: y ->
       In (k, [c; x]) punctuation ->
       exists w, r = w ++ t' /\ p' = after w p /\ q = fp /\ spells alnum numeric uc tok (c :: w) t').
    { intros k x y Hk -> I. apply pair_equal_spec in Hk. destruct Hk as [H1 H2].
      apply pair_equal_spec in H1. destruct H1 as [<- <-].
      apply pair_equal_spec in H2. destruct H2 as [<- <-].
      exists [x]. repeat split. apply sp_punct. exact I. }
    assert (ONE : forall k, ((k, fp), (r, p)) = ((tok, q), (t', p')) -> spells alnum numeric uc k [c] r ->
       exists w, r = w ++ t' /\ p' = after w p /\ q = fp /\ spells alnum numeric uc tok (c :: w) t').
    { intros k Hk I. apply pair_equal_spec in Hk. destruct Hk as [H1 H2].
      apply pair_equal_spec in H1. destruct H1 as [<- <-].
      apply pair_equal_spec in H2. destruct H2 as [<- <-].
      exists []. repeat split. exact I. }
    unfold consume_operator in H. destruct C13 as [->| ->].
    - change (60 =? 60) with true in H. cbv iota in H. destruct r as [|x y].
      + eapply ONE; [exact H|]. apply (sp_less alnum numeric uc []). exact Logic.I.
      + destruct (x =? 62) eqn:D1; [apply N.eqb_eq in D1; subst x; eapply TWO; [exact H|reflexivity|vm_compute; tauto]|].
        destruct (x =? 61) eqn:D2; [apply N.eqb_eq in D2; subst x; eapply TWO; [exact H|reflexivity|vm_compute; tauto]|].
        destruct (x =? 60) eqn:D3; [apply N.eqb_eq in D3; subst x; eapply TWO; [exact H|reflexivity|vm_compute; tauto]|].
        eapply ONE; [exact H|]. apply (sp_less alnum numeric uc (x :: y)).
        apply N.eqb_neq in D1, D2, D3. intros I. vm_compute in I. intuition congruence.
    - change (62 =? 60) with false in H. cbv iota in H. destruct r as [|x y].
      + eapply ONE; [exact H|]. apply (sp_greater alnum numeric uc []). exact Logic.I.
      + destruct (x =? 61) eqn:D2; [apply N.eqb_eq in D2; subst x; eapply TWO; [exact H|reflexivity|vm_compute; tauto]|].
        destruct (x =? 62) eqn:D1; [apply N.eqb_eq in D1; subst x; eapply TWO; [exact H|reflexivity|vm_compute; tauto]|].
        eapply ONE; [exact H|]. apply (sp_greater alnum numeric uc (x :: y)).
        apply N.eqb_neq in D1, D2. intros I. vm_compute in I. intuition congruence. }
  destruct (c =? 64) eqn:C14; [apply N.eqb_eq in C14; subst c|].
  { left. unfold Lex_Model.consume_label in H. destruct r as [|x y].
    - exfalso. apply pair_equal_spec in H. destruct H as [H _]. apply pair_equal_spec in H. destruct H as [H _].
      apply (G MEmptyLabel). congruence.
    - destruct (is_word x && negb (numeric x)) eqn:W.
      + apply andb_true_iff in W. destruct W as [W1 W2]. apply negb_true_iff in W2. apply is_word_spec in W1.
        apply label_conv in H; auto. destruct H as (w & -> & -> & -> & -> & F & E).
        exists (x :: w). repeat split. eapply sp_label; auto.
      + exfalso. apply pair_equal_spec in H. destruct H as [H _]. apply pair_equal_spec in H. destruct H as [H _].
        apply (G MEmptyLabel). congruence. }
  destruct (c =? 38) eqn:C15; [apply N.eqb_eq in C15; subst c|].
  { left. unfold consume_integer_with_base in H. destruct r as [|x y]; [exfalso; eapply bad_not_good; eauto|].
    destruct (base_of x) as [base|] eqn:Bx.
    - apply base_of_spec in Bx. destruct y as [|x2 y2]; [exfalso; eapply bad_not_good; eauto|].
      destruct (x2 =? 95) eqn:U.
      + apply N.eqb_eq in U. subst x2.
        apply (integer_conv base x [95]) in H; auto. destruct H as (w & -> & -> & -> & SP).
        exists (x :: 95 :: w). repeat split. exact SP.
      + apply (integer_conv base x []) in H; auto. destruct H as (w & E & -> & -> & SP).
        exists (x :: w). rewrite E. repeat split. exact SP.
    - destruct (is_separator x); exfalso; eapply bad_not_good; eauto. }
  destruct (is_ascii_digit c) eqn:C16.
  { left. apply is_ascii_digit_spec in C16.
    apply number_conv in H; [|exact G|split; [discriminate|constructor; auto]].
    destruct H as (w & -> & -> & -> & SP). exists w. repeat split. exact SP. }
  destruct (is_word c) eqn:C17; [|exfalso; eapply bad_not_good; eauto].
  apply symbol_conv in H; auto. destruct H as (w & sfx & t1 & v & -> & F & H & V).
  assert (WD : word alnum (c :: w)).
  { split; [constructor; auto; apply is_word_spec; exact C17|].
    intros X. apply is_ascii_digit_spec in X. congruence. }
  unfold Lex_Model.symbol_token in H. change ([c] ++ w) with (c :: w) in H.
  destruct (ustr_eqb (flat_map uc (c :: w)) (u "REM")) eqn:R.
  - apply ustr_eqb_eq in R. right. cbn [fst snd] in H.
    exists (w ++ sfx), t1. rewrite <- app_assoc. split; [reflexivity|]. split; [|exact H].
    destruct v as [ty|].
    + subst sfx. apply (cs_rem_annotated alnum uc (c :: w) ty); auto.
    + destruct V as [-> V]. rewrite app_nil_r. apply cs_rem; auto.
  - left. assert (NR : flat_map uc (c :: w) <> u "REM").
    { intros X. rewrite X, ustr_eqb_refl in R. discriminate R. }
    destruct (keyword (flat_map uc (c :: w))) as [k|] eqn:K;
      apply pair_equal_spec in H; destruct H as [H1 H2];
      apply pair_equal_spec in H1; destruct H1 as [<- <-];
      apply pair_equal_spec in H2; destruct H2 as [<- <-];
      exists (w ++ sfx); rewrite <- app_assoc; (split; [reflexivity|]); (split; [reflexivity|]);
      (split; [reflexivity|]); destruct v as [ty|].
    + subst sfx. apply (sp_annotated_keyword alnum numeric uc (c :: w) ty); auto.
    + destruct V as [-> V]. rewrite app_nil_r. apply sp_keyword; auto.
    + subst sfx. apply (sp_annotated alnum numeric uc (c :: w) ty). repeat split; try apply WD; auto.
    + destruct V as [-> V]. rewrite app_nil_r. apply sp_symbol; auto. repeat split; try apply WD; auto.
Qed.

Lemma rest_of_line_conv : forall t p tok q t' p',
  consume_rest_of_line t p = ((tok, q), (t', p')) ->
  (tok = TkEof /\ ~ In 10 t /\ q = after t p /\ t' = [] /\ p' = after t p) \/
  (tok = TkEol /\ exists body, t = body ++ 10 :: t' /\ ~ In 10 body /\ q = after body p /\
     p' = after (body ++ [10]) p).
Proof.
  induction t as [|c r IH]; intros p tok q t' p' H; cbn [consume_rest_of_line] in H.
  - apply pair_equal_spec in H. destruct H as [H1 H2].
    apply pair_equal_spec in H1. destruct H1 as [<- <-].
    apply pair_equal_spec in H2. destruct H2 as [<- <-]. left. repeat split; auto.
  - destruct (c =? 10) eqn:E.
    + apply N.eqb_eq in E. subst c. right.
      apply pair_equal_spec in H. destruct H as [H1 H2].
      apply pair_equal_spec in H1. destruct H1 as [<- <-].
      apply pair_equal_spec in H2. destruct H2 as [<- <-].
      split; [reflexivity|]. exists []. repeat split; auto.
    + apply N.eqb_neq in E. apply IH in H. destruct H as [(-> & N1 & -> & -> & ->)|(-> & body & -> & N1 & -> & ->)].
      * left. repeat split; auto. intros [X|X]; [congruence|auto].
      * right. split; [reflexivity|]. exists (c :: body). repeat split; auto.
        intros [X|X]; [congruence|auto].
Qed.

Lemma read_token_conv : forall t p tok q t' p',
  read_token t p = ((tok, q), (t', p')) -> good tok ->
  (tok = TkEof /\ tokenised alnum numeric uc t p [] q) \/
  (tok <> TkEof /\ forall l e, tokenised alnum numeric uc t' p' l e -> tokenised alnum numeric uc t p ((tok, q) :: l) e).
Proof.
  intros t p tok q t' p' H G.
  assert (X : exists sp c r, (t = sp /\ Forall blank sp /\ tok = TkEof /\ q = after sp p) \/
     (t = sp ++ c :: r /\ Forall blank sp /\ read_from c (after sp p) (r, advance (after sp p) c) = ((tok, q), (t', p')))).
  { revert p H. induction t as [|c r IH]; intros p H; cbn [Lex_Model.read_token] in H.
    - apply pair_equal_spec in H. destruct H as [H1 _].
      apply pair_equal_spec in H1. destruct H1 as [<- <-].
      exists [], 0, []. left. repeat split; auto.
    - destruct (is_space c) eqn:S1.
      + apply is_space_spec in S1. apply IH in H. destruct H as (sp & c' & r' & [(-> & F & -> & ->)|(-> & F & H)]).
        * exists (c :: sp), 0, []. left. repeat split; auto.
        * exists (c :: sp), c', r'. right. repeat split; auto.
      + exists [], c, r. right. repeat split; auto. }
  destruct X as (sp & c & r & [(-> & F & -> & ->)|(-> & F & R)]).
  - left. split; [reflexivity|]. apply tk_end. exact F.
  - apply read_from_conv in R; [|exact G].
    destruct R as [(w & -> & -> & -> & SP)|(cs & rest & -> & CS & R)].
    + right. destruct (spells_token _ _ _ SP) as [NE _]. split; [exact NE|]. intros l e T.
      change (sp ++ c :: w ++ t') with (sp ++ (c :: w) ++ t').
      apply tk_token; auto. rewrite after_app. exact T.
    + apply rest_of_line_conv in R.
      destruct R as [(-> & N1 & -> & -> & ->)|(-> & body & -> & N1 & -> & ->)].
      * left. split; [reflexivity|].
        replace (after rest (after cs (advance (after sp p) c))) with (after (sp ++ (c :: cs) ++ rest) p)
          by (rewrite !after_app; reflexivity).
        change (sp ++ c :: cs ++ rest) with (sp ++ (c :: cs) ++ rest).
        apply tk_comment_end; auto.
      * right. split; [discriminate|]. intros l e T.
        replace (after body (after cs (advance (after sp p) c))) with (after (sp ++ (c :: cs) ++ body) p)
          by (rewrite !after_app; reflexivity).
        change (sp ++ c :: cs ++ body ++ 10 :: t') with (sp ++ (c :: cs) ++ body ++ 10 :: t').
        apply tk_comment; auto.
        replace (after (sp ++ (c :: cs) ++ body ++ [10]) p) with (after (body ++ [10]) (after cs (advance (after sp p) c)))
          by (rewrite !after_app; reflexivity).
        exact T.
Qed.

(** A token that is neither the end nor an end of line is one of its spellings. *)
Lemma read_token_spelled : forall t p tok q t' p',
  read_token t p = ((tok, q), (t', p')) -> good tok -> tok <> TkEof -> tok <> TkEol ->
  exists sp w, t = sp ++ w ++ t' /\ Forall blank sp /\ spells alnum numeric uc tok w t' /\ q = after sp p.
Proof.
  induction t as [|c r IH]; intros p tok q t' p' H G N1 N2; cbn [Lex_Model.read_token] in H.
  - apply pair_equal_spec in H. destruct H as [H1 _]. apply pair_equal_spec in H1. destruct H1 as [<- _].
    congruence.
  - destruct (is_space c) eqn:S1.
    + apply is_space_spec in S1. apply IH in H; auto. destruct H as (sp & w & -> & F & SP & ->).
      exists (c :: sp), w. repeat split; auto.
    + apply read_from_conv in H; [|exact G].
      destruct H as [(w & -> & -> & -> & SP)|(cs & rest & -> & CS & R)].
      * exists [], (c :: w). repeat split; auto.
      * apply rest_of_line_conv in R. destruct R as [(-> & _)|(-> & _)]; congruence.
Qed.

Definition off_start (t : list N) (p : linecol) : Prop := p <> (1, 1) \/ starts_with_hash t = false.

Lemma read_off_start : forall t p, off_start t p -> read (t, p) = read_token t p.
Proof.
  intros t p [H|H]; [|apply read_no_hash; exact H].
  destruct t as [|c r]; [reflexivity|]. unfold Lex_Model.read.
  destruct ((fst p =? 1) && (snd p =? 1)) eqn:E; [|reflexivity].
  exfalso. apply H. rewrite andb_true_iff, !N.eqb_eq in E. destruct p as [x y]. cbn in E.
  destruct E as [-> ->]. reflexivity.
Qed.

(** Nothing but the start is at 1:1. *)
Definition valid (p : linecol) : Prop := 1 <= fst p /\ 1 <= snd p.
Lemma advance_valid : forall p c, valid p -> valid (advance p c) /\ advance p c <> (1, 1).
Proof.
  intros [l k] c [V1 V2]. unfold advance, valid in *. cbn [fst snd] in *.
  destruct (c =? 10); [cbn; split; [lia|intros X; apply pair_equal_spec in X; lia]|].
  destruct (c =? 9); cbn [fst snd].
  - unfold TAB_LENGTH.
    assert (1 <= (k - 1 + 8) / 8) by (apply N.div_le_lower_bound; lia).
    split; [lia|intros X; apply pair_equal_spec in X; lia].
  - split; [lia|intros X; apply pair_equal_spec in X; lia].
Qed.
Lemma after_valid : forall w p, valid p -> valid (after w p) /\ (w <> [] -> after w p <> (1, 1)).
Proof.
  induction w as [|c w IH]; intros p V; [split; [exact V|congruence]|].
  destruct (advance_valid p c V) as [V1 V2]. rewrite after_cons. destruct (IH _ V1) as [V3 V4].
  split; [exact V3|]. intros _. destruct w; [exact V2|apply V4; discriminate].
Qed.

Lemma read_all_tokenised : forall fuel t p l e, (length t < fuel)%nat -> valid p -> off_start t p ->
  read_all fuel (t, p) = (l, e) -> Forall (fun ts => good (fst ts)) l -> tokenised alnum numeric uc t p l e.
Proof.
  induction fuel as [|fuel IH]; intros t p l e L V O H G; [lia|].
  cbn [Lex_Model.read_all] in H.
  rewrite read_off_start in H by exact O.
  destruct (read_token t p) as [[tok q] [t' p']] eqn:R.
  assert (GT : good tok).
  { destruct tok; try (intros ? ?; discriminate).
    destruct (read_all fuel (t', p')) as [l' e']. apply pair_equal_spec in H. destruct H as [<- _].
    inversion G as [|x y G1 _]; subst. exact G1. }
  pose proof (read_token_conv _ _ _ _ _ _ R GT) as [[-> T]|[NE T]].
  - apply pair_equal_spec in H. destruct H as [<- <-]. exact T.
  - assert (NT : t <> []).
    { intros ->. cbn in R. apply pair_equal_spec in R. destruct R as [R _]. apply pair_equal_spec in R. destruct R as [R _]. congruence. }
    pose proof (read_token_progress t p NT) as P. rewrite R in P. cbn [fst snd] in P.
    pose proof (read_token_moves t p) as M. rewrite R in M. cbn [snd] in M.
    destruct M as (w & M1 & M2). cbn [fst snd] in M1, M2.
    assert (Hw : w <> []). { intros ->. cbn [app] in M1. subst t'. lia. }
    assert (V' : valid p') by (subst p'; apply after_valid; exact V).
    assert (O' : off_start t' p') by (left; subst p'; apply after_valid; auto).
    assert (X : read_all fuel (t', p') = (tl l, e) /\ l = (tok, q) :: tl l).
    { destruct (read_all fuel (t', p')) as [l' e'].
      destruct tok; try (exfalso; apply NE; reflexivity); apply pair_equal_spec in H; destruct H as [<- <-]; split; reflexivity. }
    destruct X as [X1 X2]. rewrite X2. apply T. apply (IH t' p'); auto; try lia.
    rewrite X2 in G. inversion G; assumption.
Qed.

(** Every token stands where its first character is. *)
Lemma read_token_position : forall t p tok q i', read_token t p = ((tok, q), i') ->
  exists w r, t = w ++ r /\ q = after w p /\ (tok = TkEof \/ length (fst i') < length r)%nat.
Proof.
  intros t p tok q i' H.
  enough (K : exists w r, t = w ++ r /\ q = after w p /\ (tok = TkEof \/ length (fst i') < length r)%nat) by exact K.
  revert p H. induction t as [|c r IH]; intros p H; cbn [Lex_Model.read_token] in H.
  - apply pair_equal_spec in H. destruct H as [H1 <-]. apply pair_equal_spec in H1. destruct H1 as [<- <-].
    exists [], []. repeat split; auto.
  - destruct (is_space c).
    + apply IH in H. destruct H as (w & r' & -> & -> & L). exists (c :: w), r'. repeat split; auto.
    + pose proof (read_from_moves c p (r, advance p c)) as M. rewrite H in M. cbn [snd] in M.
      apply moves_le in M. cbn [fst] in M.
      enough (q = p \/ exists w r', c :: r = w ++ r' /\ q = after w p /\ (tok = TkEof \/ length (fst i') < length r')%nat) as [->|K].
      * exists [], (c :: r). repeat split; auto. right. cbn [length]. lia.
      * exact K.
      * clear IH.
        assert (HB : forall m f i tk q' i0, handle_bad_read m f i = ((tk, q'), i0) -> q' = f).
        { intros m f i tk q' i0 X. unfold handle_bad_read in X. apply (f_equal (fun x => snd (fst x))) in X. cbn in X. congruence. }
        assert (RL : forall pre t1 p1 tk q' i0, consume_rest_of_line t1 p1 = ((tk, q'), i0) ->
          c :: r = pre ++ t1 -> p1 = after pre p ->
          exists w r', c :: r = w ++ r' /\ q' = after w p /\ (tk = TkEof \/ length (fst i0) < length r')%nat).
        { intros pre t1 p1 tk q' [t2 p2] X E1 E2. apply rest_of_line_conv in X.
          destruct X as [(-> & _ & -> & -> & ->)|(-> & body & -> & _ & -> & ->)].
          - exists (pre ++ t1), []. rewrite app_nil_r, after_app, <- E2. cbn. auto.
          - exists (pre ++ body), (10 :: t2). rewrite <- app_assoc, after_app, <- E2. cbn [fst length]. repeat split; auto. }
        assert (ST : forall s v pre t1 p1 tk q' i0, symbol_token s v p (t1, p1) = ((tk, q'), i0) ->
          c :: r = pre ++ t1 -> p1 = after pre p ->
          q' = p \/ exists w r', c :: r = w ++ r' /\ q' = after w p /\ (tk = TkEof \/ length (fst i0) < length r')%nat).
        { intros s v pre t1 p1 tk q' i0 X E1 E2. unfold Lex_Model.symbol_token in X.
          destruct (ustr_eqb _ _); [right; eapply RL; eauto|].
          left. destruct (keyword _); apply (f_equal (fun x => snd (fst x))) in X; cbn in X; congruence. }
        assert (CS : forall t1 s pre p1 tk q' i0, consume_symbol s p t1 p1 = ((tk, q'), i0) ->
          c :: r = pre ++ t1 -> p1 = after pre p ->
          q' = p \/ exists w r', c :: r = w ++ r' /\ q' = after w p /\ (tk = TkEof \/ length (fst i0) < length r')%nat).
        { induction t1 as [|x y IHt]; intros s pre p1 tk q' i0 X E1 E2; cbn [Lex_Model.consume_symbol] in X.
          - eapply ST; eauto.
          - assert (E3 : c :: r = (pre ++ [x]) ++ y) by (rewrite <- app_assoc; exact E1).
            assert (E4 : advance p1 x = after (pre ++ [x]) p) by (rewrite after_app, <- E2; reflexivity).
            destruct (is_word x); [eapply IHt; eauto|].
            destruct (is_separator x); [eapply ST; eauto|].
            destruct (annotation x); [eapply ST; eauto|left; eapply HB; eauto]. }
        assert (CN : forall t1 s d p1 tk q' i0, consume_number s d p t1 p1 = ((tk, q'), i0) -> q' = p).
        { assert (NTK : forall s d i tk q' i0, number_token s d p i = ((tk, q'), i0) -> q' = p).
          { intros s d i tk q' i0 X. unfold number_token in X.
            destruct d; [destruct (_ =? _)|destruct (from_radix _ _ _ _)]; try (eapply HB; eauto; fail);
              apply (f_equal (fun x => snd (fst x))) in X; cbn in X; congruence. }
          induction t1 as [|x y IHt]; intros s d p1 tk q' i0 X; cbn [consume_number] in X.
          - eapply NTK; eauto.
          - destruct (x =? 46); [destruct d; [eapply HB; eauto|eapply IHt; eauto]|].
            destruct (is_ascii_digit x); [eapply IHt; eauto|].
            destruct (is_separator x); [eapply NTK; eauto|eapply HB; eauto]. }
        assert (CI : forall b t1 s p1 tk q' i0, consume_integer b s p t1 p1 = ((tk, q'), i0) -> q' = p).
        { intros b.
          assert (NTK : forall s i tk q' i0, integer_token b s p i = ((tk, q'), i0) -> q' = p).
          { intros s i tk q' i0 X. unfold integer_token in X. destruct s; [eapply HB; eauto|].
            destruct (from_radix _ _ _ _); [|eapply HB; eauto].
            apply (f_equal (fun x => snd (fst x))) in X; cbn in X; congruence. }
          induction t1 as [|x y IHt]; intros s p1 tk q' i0 X; cbn [consume_integer] in X.
          - eapply NTK; eauto.
          - destruct (x =? 46); [eapply HB; eauto|].
            destruct (_ || _); [eapply IHt; eauto|].
            destruct (is_separator x); [eapply NTK; eauto|eapply HB; eauto]. }
        assert (CT : forall t1 s d p1 tk q' i0, consume_text 34 s d p t1 p1 = ((tk, q'), i0) -> q' = p).
        { induction t1 as [|x y IHt]; intros s d p1 tk q' i0 X; cbn [consume_text] in X.
          - eapply HB; eauto.
          - destruct d; [eapply IHt; eauto|].
            destruct (x =? 92); [eapply IHt; eauto|].
            destruct (x =? 34); [|eapply IHt; eauto].
            apply (f_equal (fun x => snd (fst x))) in X; cbn in X; congruence. }
        assert (CL : forall t1 s p1 tk q' i0, label_rest s p t1 p1 = ((tk, q'), i0) -> q' = p).
        { induction t1 as [|x y IHt]; intros s p1 tk q' i0 X; cbn [Lex_Model.label_rest] in X.
          - apply (f_equal (fun x => snd (fst x))) in X; cbn in X; congruence.
          - destruct (is_word x); [eapply IHt; eauto|].
            destruct (is_separator x); [|eapply HB; eauto].
            apply (f_equal (fun x => snd (fst x))) in X; cbn in X; congruence. }
        unfold Lex_Model.read_from in H. cbn [fst snd] in H.
        assert (SM : forall (k : token) (i : input), ((k, p), i) = ((tok, q), i') -> q = p).
        { intros k i X. apply (f_equal (fun x => snd (fst x))) in X; cbn in X; congruence. }
        destruct (_ || _); [left; eapply SM; eauto|].
        destruct (c =? 39); [right; eapply (RL [c]); eauto|].
        destruct (c =? 34) eqn:C34; [apply N.eqb_eq in C34; subst c; left; eapply CT; eauto|].
        do 10 (match type of H with (if ?b then _ else _) = _ => destruct b; [left; eapply SM; eauto|] end).
        match type of H with (if ?b then _ else _) = _ => destruct b end.
        { left. unfold consume_operator in H. destruct r as [|x y].
          - eapply SM; eauto.
          - repeat match type of H with (if ?b then _ else _) = _ => destruct b; try (eapply SM; eauto; fail) end; eapply SM; eauto. }
        destruct (c =? 64).
        { left. unfold Lex_Model.consume_label in H. destruct r as [|x y]; [eapply SM; eauto|].
          destruct (_ && _); [eapply CL; eauto|eapply SM; eauto]. }
        destruct (c =? 38).
        { left. unfold consume_integer_with_base in H. destruct r as [|x y]; [eapply HB; eauto|].
          destruct (base_of x); [|destruct (is_separator x); eapply HB; eauto].
          destruct y as [|x2 y2]; [eapply HB; eauto|].
          destruct (x2 =? 95); eapply CI; eauto. }
        destruct (is_ascii_digit c); [left; eapply CN; eauto|].
        destruct (is_word c); [eapply (CS r [c] [c]); eauto|left; eapply HB; eauto].
Qed.

Lemma tokenised_nil_end : forall t p e, tokenised alnum numeric uc t p [] e -> e = after t p.
Proof. intros t p e H. inversion H; subst; reflexivity. Qed.

Lemma read_position : forall t p tok q t' p', valid p -> read (t, p) = ((tok, q), (t', p')) ->
  (tok = TkEof /\ q = after t p) \/
  (exists w r u, t = w ++ r /\ q = after w p /\ r = u ++ t' /\ u <> [] /\ p' = after (w ++ u) p /\ tok <> TkEof).
Proof.
  intros t p tok q t' p' V H.
  assert (RT : forall t p tok q t' p', read_token t p = ((tok, q), (t', p')) ->
    (tok = TkEof /\ q = after t p) \/
    (exists w r u, t = w ++ r /\ q = after w p /\ r = u ++ t' /\ u <> [] /\ p' = after (w ++ u) p /\ tok <> TkEof)).
  { clear t p tok q t' p' V H. intros t p tok q t' p' H.
    assert (D : tok = TkEof \/ tok <> TkEof) by (destruct tok; (left; reflexivity) || (right; discriminate)).
    destruct D as [D|D].
    - left. split; [exact D|]. subst tok.
      destruct (read_token_conv _ _ _ _ _ _ H ltac:(intros ? ?; discriminate)) as [[_ T]|[T _]];
        [|exfalso; apply T; reflexivity].
      apply tokenised_nil_end in T. exact T.
    - right. pose proof (read_token_moves t p) as M. rewrite H in M. cbn [snd] in M.
      destruct M as (x & M1 & M2). cbn [fst snd] in M1, M2.
      apply read_token_position in H. destruct H as (w & r & E1 & -> & [L|L]); [congruence|].
      cbn [fst] in L. exists w, r, (skipn (length w) x).
      assert (Lx : (length w <= length x)%nat).
      { assert (length (w ++ r) = length (x ++ t')) by congruence. rewrite !app_length in *. lia. }
      assert (Er : r = skipn (length w) x ++ t').
      { assert (X : skipn (length w) (w ++ r) = skipn (length w) (x ++ t')) by congruence.
        rewrite skipn_app, skipn_all, Nat.sub_diag in X. cbn [skipn app] in X.
        rewrite skipn_app in X. replace (length w - length x)%nat with 0%nat in X by lia. exact X. }
      assert (Ex : x = w ++ skipn (length w) x).
      { assert (X : firstn (length w) (w ++ r) = firstn (length w) (x ++ t')) by congruence.
        rewrite firstn_app, firstn_all, Nat.sub_diag, firstn_O, app_nil_r in X.
        rewrite firstn_app in X. replace (length w - length x)%nat with 0%nat in X by lia.
        rewrite firstn_O, app_nil_r in X.
        transitivity (firstn (length w) x ++ skipn (length w) x);
          [symmetry; apply firstn_skipn|rewrite <- X; reflexivity]. }
      repeat split; auto.
      + intros X. rewrite X in Er. cbn [app] in Er. subst r. lia.
      + rewrite <- Ex. exact M2. }
  unfold Lex_Model.read in H. destruct t as [|c r]; [apply RT; exact H|].
  destruct (_ && _); [|apply RT; exact H].
  assert (HBD : forall m (i : input), handle_bad_read m p i = ((tok, q), (t', p')) -> i = (r, advance p c) ->
    exists w r0 u, c :: r = w ++ r0 /\ q = after w p /\ r0 = u ++ t' /\ u <> [] /\ p' = after (w ++ u) p /\ tok <> TkEof).
  { intros m i X ->. pose proof (handle_bad_moves m p (r, advance p c)) as M. rewrite X in M.
    destruct M as (x & M1 & M2). cbn [fst snd] in M1, M2.
    unfold handle_bad_read in X. apply (f_equal fst) in X. cbn [fst] in X.
    apply pair_equal_spec in X. destruct X as [<- <-].
    exists [], (c :: r), (c :: x). cbn [app]. rewrite M1. repeat split; auto; discriminate. }
  destruct r as [|c2 r2]; [right; eapply HBD; [exact H|reflexivity]|].
  destruct (c2 =? 33); [|right; eapply HBD; [exact H|reflexivity]].
  destruct (consume_rest_of_line r2 (advance (advance p c) c2)) as [ts0 [t1 p1]] eqn:R.
  pose proof (rest_of_line_moves r2 (advance (advance p c) c2)) as M. rewrite R in M.
  destruct M as (x & M1 & M2). cbn [fst snd] in M1, M2. subst r2 p1.
  apply RT in H. destruct H as [(-> & ->)|(w & r & u0 & -> & -> & -> & Hu & -> & NE)].
  - left. split; [reflexivity|]. rewrite !after_cons, after_app. reflexivity.
  - right. exists (c :: c2 :: x ++ w), (u0 ++ t'), u0. cbn [app]. rewrite <- app_assoc.
    repeat split; auto; rewrite ?after_cons, ?after_app; rewrite <- ?app_assoc; rewrite ?after_app; reflexivity.
Qed.

Lemma read_all_positions : forall fuel t p l e, (length t < fuel)%nat -> valid p ->
  read_all fuel (t, p) = (l, e) ->
  exists ks, Forall2 (fun ts k => snd ts = after (firstn k t) p) l ks /\
    StronglySorted lt ks /\ Forall (fun k => (k < length t)%nat) ks /\ e = after t p.
Proof.
  induction fuel as [|fuel IH]; intros t p l e L V H; [lia|].
  cbn [Lex_Model.read_all] in H.
  destruct (read (t, p)) as [[tok q] [t' p']] eqn:R.
  apply read_position in R; [|exact V].
  destruct R as [(-> & ->)|(w & r & u0 & -> & -> & -> & Hu & -> & NE)].
  - apply pair_equal_spec in H. destruct H as [<- <-]. exists []. repeat split; constructor.
  - destruct (read_all fuel (t', after (w ++ u0) p)) as [l' e'] eqn:R2.
    assert (E : l = (tok, after w p) :: l' /\ e = e').
    { destruct tok; try (exfalso; apply NE; reflexivity); apply pair_equal_spec in H; destruct H as [<- <-]; auto. }
    destruct E as [-> ->].
    assert (Lu : (0 < length u0)%nat) by (destruct u0; [congruence|cbn; lia]).
    rewrite !app_length in L.
    apply IH in R2; [|lia|apply after_valid; exact V].
    destruct R2 as (ks & F & SS & B & ->).
    set (d := length (w ++ u0)).
    exists (length w :: map (fun k => d + k)%nat ks).
    assert (FS : forall k, firstn (d + k) (w ++ u0 ++ t') = (w ++ u0) ++ firstn k t').
    { intros k. rewrite app_assoc. unfold d. rewrite firstn_app_2. reflexivity. }
    repeat split.
    + constructor.
      * cbn [snd]. rewrite firstn_app, firstn_all, Nat.sub_diag, firstn_O, app_nil_r. reflexivity.
      * clear -F FS. induction F as [|a k l ks E F IH]; cbn [map]; constructor; auto.
        rewrite FS, after_app. exact E.
    + constructor.
      * clear -SS. induction SS as [|k ks SS IH F]; cbn [map]; constructor; auto.
        rewrite Forall_map. eapply Forall_impl; [|exact F]. cbv beta. lia.
      * rewrite Forall_map. apply Forall_forall. intros k _. unfold d. rewrite app_length. lia.
    + constructor.
      * rewrite !app_length. lia.
      * rewrite Forall_map. eapply Forall_impl; [|exact B]. cbv beta. intros k Hk. unfold d.
        rewrite !app_length. lia.
    + rewrite app_assoc, (after_app (w ++ u0) t'). reflexivity.
Qed.

Lemma after_line : forall w p, ~ In 10 w -> fst (after w p) = fst p.
Proof.
  induction w as [|c w IH]; intros p N1; [reflexivity|]. rewrite after_cons, IH.
  - unfold advance. destruct p as [a b]. rewrite (proj2 (N.eqb_neq c 10)) by (intros ->; apply N1; left; reflexivity).
    destruct (c =? 9); reflexivity.
  - intros I. apply N1. right. exact I.
Qed.

Lemma read_shebang : forall line rest, ~ In 10 line ->
  read (35 :: 33 :: line ++ 10 :: rest, (1, 1)) = read_token rest (2, 1).
Proof.
  intros line rest H. unfold Lex_Model.read. cbn [fst snd].
  change ((1 =? 1) && (1 =? 1) && (35 =? 35)) with true. change (33 =? 33) with true. cbv iota.
  rewrite (rest_of_line_eol line rest _ H). rewrite after_app.
  pose proof (after_line line (advance (advance (1, 1) 35) 33) H) as X.
  destruct (after line (advance (advance (1, 1) 35) 33)) as [a b].
  change (fst (advance (advance (1, 1) 35) 33)) with 1 in X. cbn [fst] in X. subst a. reflexivity.
Qed.

Lemma read_all_S : forall n i, Lex_Model.read_all alnum numeric uc (S n) i =
  match read i with
  | ((TkEof, p), _) => ([], p)
  | (ts, i') => let '(l, e) := read_all n i' in (ts :: l, e)
  end.
Proof. reflexivity. Qed.

Lemma read_all_shebang : forall n line rest, ~ In 10 line ->
  read_all (S n) (35 :: 33 :: line ++ 10 :: rest, (1, 1)) = read_all (S n) (rest, (2, 1)).
Proof.
  intros n line rest H. rewrite !read_all_S, (read_shebang line rest H).
  pose proof (read_off_start rest (2, 1) ltac:(left; discriminate)) as E. unfold linecol, input in *.
  rewrite E. reflexivity.
Qed.

End Tables.
