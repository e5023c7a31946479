(** Proofs about the commands of the console. *)
From Coq Require Import String Floats.SpecFloat.
From Verif Require Import Base Bytecode_Model Bytecode_Proofs Mem_Model Num_Model Vm_Model Vm_Spec Ast_Model Text_Model Text_Proofs Strings_Model
  Strings_Spec Strings_Proofs Eval_Spec Call_Spec Cmds_Model Cmds_Spec.
Local Open Scope string_scope.
Local Open Scope list_scope.
Local Open Scope nat_scope.

(** * Numerals *)

Lemma digits_value_snoc l c : forall acc, digits_value acc (l ++ [c]) = (digits_value acc l * 10 + (Z.of_N c - 48))%Z.
Proof. induction l as [|x l IH]; intros acc; cbn [app digits_value]; [reflexivity|apply IH]. Qed.

Definition no_zero (l : ustr) : Prop := forall r, l <> 48%N :: r.

Lemma no_zero_positive l : digits l -> no_zero l -> l <> [] -> (0 < digits_value 0 l)%Z.
Proof.
  intros D NZ NE. destruct l as [|c l]; [contradiction|]. inversion_clear D as [|? ? Dc Dl]. cbn [digits_value].
  assert (c <> 48%N) by (intros ->; exact (NZ l eq_refl)).
  pose proof (digits_value_mono l Dl (0 * 10 + (Z.of_N c - 48))%Z). lia.
Qed.

Lemma no_zero_app l c : no_zero (l ++ [c]) -> l <> [] -> no_zero l.
Proof. intros NZ NE r ->. exact (NZ (r ++ [c]) eq_refl). Qed.

Lemma digits_snoc l c : digits (l ++ [c]) -> digits l /\ (48 <= c <= 57)%N.
Proof. intros D. apply Forall_app in D. destruct D as [D1 D2]. inversion_clear D2. auto. Qed.

Lemma no_zero_unique a : forall b, digits a -> digits b -> no_zero a -> no_zero b -> digits_value 0 a = digits_value 0 b -> a = b.
Proof.
  induction a as [|x a IH] using rev_ind; intros b Da Db Na Nb E.
  - destruct b as [|y b]; [reflexivity|]. exfalso.
    pose proof (no_zero_positive (y :: b) Db Nb ltac:(discriminate)) as P. rewrite <- E in P. cbn in P. lia.
  - destruct (list_eq_dec N.eq_dec b []) as [->|NE].
    + exfalso. pose proof (no_zero_positive (a ++ [x]) Da Na ltac:(destruct a; discriminate)) as P. rewrite E in P. cbn in P. lia.
    + destruct (exists_last NE) as (b' & y & ->). rewrite !digits_value_snoc in E.
      apply digits_snoc in Da, Db. destruct Da as [Da Dx], Db as [Db Dy].
      assert (x = y /\ digits_value 0 a = digits_value 0 b') as [-> E'].
      { assert (Z.of_N x = Z.of_N y) by lia. split; lia. }
      f_equal. destruct (list_eq_dec N.eq_dec a []) as [->|NA]; destruct (list_eq_dec N.eq_dec b' []) as [->|NB]; auto.
      * exfalso. pose proof (no_zero_positive b' Db (no_zero_app _ _ Nb NB) NB) as P. rewrite <- E' in P. cbn in P. lia.
      * exfalso. pose proof (no_zero_positive a Da (no_zero_app _ _ Na NA) NA) as P. rewrite E' in P. cbn in P. lia.
      * apply IH; auto; eapply no_zero_app; eassumption.
Qed.

Lemma numeral_zero d : numeral 0 d -> d = [48%N].
Proof.
  intros (D & NE & NZ & V). destruct d as [|c d]; [contradiction|]. inversion D as [|? ? Dc Dd]; subst.
  destruct (N.eq_dec c 48) as [->|NC]; [rewrite (NZ d eq_refl); reflexivity|]. exfalso.
  pose proof (no_zero_positive (c :: d) D ltac:(intros r E; injection E as ? _; contradiction) NE) as P. rewrite V in P. cbn in P. lia.
Qed.

Lemma numeral_unique z a b : numeral z a -> numeral z b -> a = b.
Proof.
  intros A B. destruct (Z.eq_dec z 0) as [->|NZ]; [rewrite (numeral_zero a A), (numeral_zero b B); reflexivity|].
  destruct A as (Da & Na & Za & Va), B as (Db & Nb & Zb & Vb). apply no_zero_unique; auto; [| |congruence].
  - intros r ->. rewrite (Za r eq_refl) in Va. change (digits_value 0 [48%N]) with 0%Z in Va. lia.
  - intros r ->. rewrite (Zb r eq_refl) in Vb. change (digits_value 0 [48%N]) with 0%Z in Vb. lia.
Qed.

Lemma decimal_no_zero f : forall n, (0 < n)%N -> (n < 2 ^ N.of_nat f)%N -> no_zero (decimal f n).
Proof.
  induction f as [|f IH]; intros n P L; cbn [decimal].
  - cbn in L. lia.
  - destruct (N.ltb_spec n 10) as [LT|GE]; intros r E.
    + assert (48 + n = 48)%N by congruence. lia.
    + assert (P' : (0 < n / 10)%N) by (apply N.div_str_pos; lia).
      assert (L' : (n / 10 < 2 ^ N.of_nat f)%N).
      { rewrite Nat2N.inj_succ, N.pow_succ_r' in L. apply N.div_lt_upper_bound; [discriminate|]. clear -L P. lia. }
      pose proof (IH _ P' L') as NZ. destruct (decimal f (n / 10)) as [|c d] eqn:D.
      * pose proof (decimal_spec f (n / 10) L') as (_ & NE & _). apply NE; [left; clear -P'; lia|exact D].
      * cbn [app] in E. injection E as -> _. exact (NZ d eq_refl).
Qed.

Lemma to_string_numeral z : exists d, numeral z d /\ to_string z = if (z <? 0)%Z then 45%N :: d else d.
Proof.
  unfold to_string. set (n := Z.abs_N z). set (f := S (N.to_nat (N.log2 n))).
  assert (L : (n < 2 ^ N.of_nat f)%N).
  { subst f. rewrite Nat2N.inj_succ, N2Nat.id. destruct (N.eq_dec n 0) as [->|NZ]; [reflexivity|]. apply N.log2_spec. lia. }
  destruct (decimal_spec f n L) as (D & Ne & V). exists (decimal f n).
  assert (Ne' : decimal f n <> []) by (apply Ne; right; subst f; discriminate).
  split; [|destruct (z <? 0)%Z; reflexivity]. repeat split; auto.
  - intros r E. destruct (N.eq_dec n 0) as [Z0|NZ].
    + subst f. rewrite Z0 in E. cbn in E. injection E as E. congruence.
    + exfalso. exact (decimal_no_zero f n ltac:(lia) L r E).
  - rewrite V. subst n. lia.
Qed.

Lemma format_shows show z : shows show (CInt z) (format_integer z).
Proof.
  destruct (to_string_numeral z) as (d & D & E). unfold format_integer. rewrite E.
  destruct (Z.ltb_spec z 0).
  - apply (Shows_negative show z d); auto.
  - apply (Shows_positive show z d); auto.
Qed.

Lemma shows_unique show d a b : shows show d a -> shows show d b -> a = b.
Proof.
  intros A B. destruct A; inversion B; subst; try reflexivity; try lia; try contradiction; do 2 f_equal;
    try (eapply numeral_unique; eassumption).
Qed.

(** * PRINT *)

Lemma bytes_app a b : bytes (a ++ b) = bytes a + bytes b.
Proof. unfold bytes. rewrite map_app, list_sum_app. reflexivity. Qed.
Lemma bytes_spaces k : bytes (repeat space k) = k.
Proof. induction k as [|k IH]; [reflexivity|]. change (S (bytes (repeat space k)) = S k). congruence. Qed.
Lemma byte_len_bytes t : byte_len t = bytes t.
Proof.
  unfold byte_len, bytes, collect. induction t as [|c t IH]; [reflexivity|].
  cbn [flat_map map list_sum fold_right]. rewrite app_length, enc1_len. f_equal. exact IH.
Qed.

Lemma pad_loop_spaces j : forall fuel t, j < 14 -> j < fuel -> (bytes t + j) mod 14 = 0 -> pad_loop fuel t = t ++ repeat space j.
Proof.
  induction j as [|j IH]; intros [|fuel] t J F M; try lia; cbn [pad_loop]; rewrite byte_len_bytes.
  - rewrite Nat.add_0_r in M. rewrite M. cbn [Nat.eqb repeat]. rewrite app_nil_r. reflexivity.
  - destruct (Nat.eqb_spec (bytes t mod 14) 0) as [Z0|NZ].
    + exfalso. rewrite Nat.add_mod, Z0 in M by lia. cbn [Nat.add] in M. rewrite Nat.mod_mod, Nat.mod_small in M by lia. lia.
    + rewrite (IH fuel (t ++ [32%N])); [|lia|lia|].
      * rewrite <- app_assoc. reflexivity.
      * rewrite bytes_app. change (bytes [32%N]) with 1. replace (bytes t + 1 + j) with (bytes t + S j) by lia. exact M.
Qed.

Lemma repeat_more {A} (x : A) k : repeat x (S k) = x :: repeat x k.
Proof. reflexivity. Qed.

Section Scope.
Variable arg : nat -> N.
Variable text_of : N -> option ustr.
Variable show_double : N -> ustr.
Notation given_at := (given_at arg text_of).
Notation given_from := (given_from arg text_of).

Lemma given_cons reg g gs : given_from reg (g :: gs) -> given_at reg g /\ given_from (S reg) gs.
Proof.
  intros H. split; [rewrite <- (Nat.add_0_r reg); exact (H 0 g eq_refl)|].
  intros k g' E. specialize (H (S k) g' E). rewrite Nat.add_succ_r in H. exact H.
Qed.

Definition is_text (d : cdatum) : bool := match d with CText _ => true | _ => false end.

Lemma print_value_shows k d v : given_at k (GValue d) -> shows show_double d v ->
  print_value arg text_of show_double (cdatum_etype d) k = Some (v, negb (is_text d)).
Proof.
  intros G H. destruct d as [b|x|z|s]; cbn [Cmds_Spec.given_at] in G; cbn [cdatum_etype print_value is_text negb].
  - rewrite G. inversion H; subst; reflexivity.
  - rewrite G. inversion H as [| | | |? ND|? ND|]; subst; unfold format_double.
    + destruct ND as [N1 N2]. rewrite N2. destruct (f64_sf _); try reflexivity. contradiction.
    + destruct (f64_sf _) eqn:F; cbn [negb andb]; try reflexivity;
        (destruct (N.testbit _ 63) eqn:B; [|reflexivity]; exfalso; apply ND; split; [congruence|exact B]).
  - rewrite G. rewrite (shows_unique _ _ _ _ H (format_shows show_double z)). reflexivity.
  - rewrite G. inversion H; subst; reflexivity.
Qed.

(** The last of them. *)
Definition last_value (l : list item) : option cdatum := fst (last l (None, SepEnd)).

Lemma vararg_at k t : arg k = vararg_make t -> vararg_parse (arg k) = Some t.
Proof. intros ->. apply vararg_roundtrip. Qed.

Lemma spells_cons t v sep l t' : spells show_double t ((v, sep) :: l) t' ->
  exists x, match v with Some d => shows show_double d x | None => x = [] end /\ spells_after show_double (t ++ x) v sep l t'.
Proof.
  intros H. inversion H; subst.
  - eexists. split; [eassumption|assumption].
  - exists []. split; [reflexivity|]. rewrite app_nil_r. assumption.
Qed.

Lemma print_loop_spells l : forall fuel reg text t', item_list l -> spells show_double text l t' ->
  given_from reg (slots l) -> reg + length (slots l) < 256 -> length l <= fuel ->
  print_loop arg text_of show_double fuel reg text =
  Some (t', match last_value l with
            | Some _ => true
            | None => (match l with [_] => true | _ => false end) && (reg =? 0) && match text with [] => true | _ => false end
            end).
Proof.
  induction l as [|[v sep] l IH]; intros fuel reg text t' IL SP G LT F.
  { destruct IL as (l' & v & E & _). destruct l'; discriminate E. }
  destruct fuel as [|fuel]; [cbn [length] in F; lia|].
  assert (IL' : match l with [] => sep = SepEnd | _ => item_list l /\ (sep = SepShort \/ sep = SepLong) end).
  { destruct IL as (l' & v' & E & FA). destruct l' as [|i l'].
    - cbn [app] in E. injection E as -> -> ->. reflexivity.
    - cbn [app] in E. injection E as <- ->. inversion_clear FA as [|? ? FA1 FA2]. cbn [snd] in FA1.
      assert (item_list (l' ++ [(v', SepEnd)])) by (exists l', v'; auto).
      destruct (l' ++ [(v', SepEnd)]) eqn:Q; [destruct l'; discriminate Q|]. auto. }
  apply spells_cons in SP. destruct SP as (x & X & SA).
  assert (R : exists add_space,
    print_loop arg text_of show_double (S fuel) reg text =
    (let reg' := reg + length (item_slots (v, sep)) in
     let nl := match v with Some _ => true | None =>
                 match sep with SepEnd => true | _ => false end && (S reg =? 1) && match text with [] => true | _ => false end end in
     if 256 <=? reg' then None
     else match sep with
          | SepAs => None
          | SepEnd => Some (text ++ x, nl)
          | SepLong => print_loop arg text_of show_double fuel reg' (pad_loop 14 ((text ++ x) ++ u " "))
          | SepShort => print_loop arg text_of show_double fuel reg' (if (add_space : bool) then (text ++ x) ++ u " " else text ++ x)
          end) /\ add_space = match v with Some d => negb (is_text d) | None => false end).
  { destruct v as [d|]; cbn [slots flat_map item_slots app] in G; cbn [item_slots length].
    - apply given_cons in G. destruct G as [G1 G]. apply given_cons in G. destruct G as [G2 G].
      eexists. split; [|reflexivity]. cbn [print_loop]. cbn [Cmds_Spec.given_at] in G1. rewrite (vararg_at _ _ G1).
      rewrite (print_value_shows _ _ _ G2 X). rewrite !Nat.add_succ_r, Nat.add_0_r. reflexivity.
    - apply given_cons in G. destruct G as [G1 G]. eexists. split; [|reflexivity]. cbn [print_loop].
      cbn [Cmds_Spec.given_at] in G1. rewrite (vararg_at _ _ G1). rewrite X, app_nil_r, !Nat.add_succ_r, Nat.add_0_r. reflexivity. }
  destruct R as (sp & -> & SPE). cbv zeta.
  assert (G' : given_from (reg + length (item_slots (v, sep))) (slots l)).
  { intros k g E. specialize (G (length (item_slots (v, sep)) + k) g). rewrite Nat.add_assoc in G. apply G.
    cbn [slots flat_map]. rewrite nth_error_app2 by lia. rewrite Nat.add_comm, Nat.add_sub. exact E. }
  assert (LT' : reg + length (item_slots (v, sep)) + length (slots l) < 256).
  { cbn [slots flat_map] in LT. rewrite app_length in LT. fold (slots l) in LT. lia. }
  assert (F' : length l <= fuel) by (cbn [length] in F; lia).
  assert (P : 0 < length (item_slots (v, sep))) by (destruct v; cbn [item_slots length]; lia).
  destruct (Nat.leb_spec 256 (reg + length (item_slots (v, sep)))) as [|_]; [lia|].
  destruct l as [|i l].
  - subst sep. inversion SA; subst. unfold last_value. cbn [last fst]. destruct v; reflexivity.
  - destruct IL' as [IL' SEP]. set (l1 := i :: l) in *.
    assert (Z0 : forall t, match last_value l1 with
                 | Some _ => true
                 | None => (match l1 with [_] => true | _ => false end) && (reg + length (item_slots (v, sep)) =? 0) && match t : ustr with [] => true | _ => false end
                 end = match last_value l1 with Some _ => true | None => false end).
    { intros t. destruct (last_value l1); [reflexivity|]. destruct (Nat.eqb_spec (reg + length (item_slots (v, sep))) 0); [lia|].
      destruct l; reflexivity. }
    transitivity (Some (t', match last_value l1 with Some _ => true | None => false end)).
    2: { unfold last_value, l1. cbn [last]. destruct (fst _); reflexivity. }
    rewrite <- (Z0 (if sp then (text ++ x) ++ u " " else text ++ x)) at 1.
    destruct SEP as [-> | ->].
    + apply IH; auto. rewrite SPE. inversion SA; subst; cbn [is_text negb]; auto.
      match goal with H : forall s, ?d <> CText s |- _ => destruct d; cbn [is_text negb]; try assumption; exfalso; eapply H; reflexivity end.
    + inversion SA as [| | | |? ? k ? ? K1 K2 SN]; subst. rewrite (Z0 _), <- (Z0 (pad_loop 14 ((text ++ x) ++ u " "))). apply IH; auto.
      destruct k as [|k]; [lia|]. rewrite (pad_loop_spaces k).
      * rewrite <- app_assoc. exact SN.
      * lia.
      * lia.
      * rewrite bytes_app. change (bytes (u " ")) with 1. replace (bytes (text ++ x) + 1 + k) with (bytes (text ++ x) + S k) by lia. exact K2.
Qed.

Lemma ends_line_last l : item_list l -> ends_line l <->
  match last_value l with Some _ => true | None => match l with [_] => true | _ => false end end = true.
Proof.
  intros (l' & v & -> & FA). unfold last_value. rewrite last_last. cbn [fst]. split.
  - intros [E|(l2 & d & E)].
    + destruct l' as [|i l']; [|destruct l'; discriminate E]. destruct v; reflexivity.
    + apply app_inj_tail in E. destruct E as [_ E]. injection E as ->. reflexivity.
  - destruct v as [d|]; [right; exists l', d; reflexivity|]. destruct l' as [|i l']; [left; reflexivity|].
    destruct l'; discriminate.
Qed.

(** [PRINT] does what it should. *)
Lemma print_exec_does l op : item_list l -> print_does show_double l op -> given_from 0 (slots l) -> length (slots l) < 256 ->
  print_exec arg text_of show_double = Some (Ok op).
Proof.
  intros IL D G LT. unfold print_exec.
  assert (LL : length l <= length (slots l)).
  { clear. unfold slots. induction l as [|[[d|] sep] l IH]; cbn [flat_map item_slots app length] in *; lia. }
  assert (Q : exists t, spells show_double [] l t /\ (op = OpPrint t /\ ends_line l \/ op = OpWrite t /\ ~ ends_line l))
    by (destruct D; eauto).
  destruct Q as (t & SP & Q). rewrite (print_loop_spells l 256 0 [] t IL SP G LT ltac:(lia)).
  pose proof (ends_line_last l IL) as E. cbn [Nat.eqb]. rewrite !andb_true_r.
  destruct (match last_value l with Some _ => true | None => match l with [_] => true | _ => false end end) eqn:B;
    destruct Q as [[-> Q]|[-> Q]]; try reflexivity.
  - exfalso. apply Q, E. reflexivity.
  - apply E in Q. discriminate Q.
Qed.
End Scope.

Lemma bytes_ascii t : ascii t -> bytes t = length t.
Proof.
  unfold bytes. induction 1 as [|c t A _ IH]; [reflexivity|]. cbn [map list_sum fold_right length]. change (fold_right Nat.add 0 (map utf8_len1 t)) with (list_sum (map utf8_len1 t)). rewrite IH.
  unfold utf8_len1. destruct (N.ltb_spec c 128); lia.
Qed.

Lemma spells_fields show l1 : forall t v l2 t', ascii t -> Forall (ascii_item show) (l1 ++ [(v, SepLong)]) ->
  spells show t (l1 ++ (v, SepLong) :: l2) t' -> exists pre, spells show (pre ++ [space]) l2 t' /\ S (length pre) mod 14 = 0.
Proof.
  induction l1 as [|[v1 sep] l1 IH]; intros t v l2 t' At F SP; cbn [app] in *; apply spells_cons in SP; destruct SP as (x & X & SA);
    inversion_clear F as [|? ? F1 F2].
  - assert (Ax : ascii (t ++ x)).
    { apply Forall_app. split; [exact At|]. destruct v as [d|]; [exact (F1 d x eq_refl X)|subst x; constructor]. }
    inversion SA as [| | | |? ? k ? ? K1 K2 SN]; subst. destruct k as [|k]; [lia|].
    exists ((t ++ x) ++ repeat space k). split.
    + rewrite <- app_assoc, <- repeat_cons. exact SN.
    + rewrite app_length, repeat_length, <- bytes_ascii by exact Ax. replace (S (bytes (t ++ x) + k)) with (bytes (t ++ x) + S k) by lia. exact K2.
  - assert (Ax : ascii (t ++ x)).
    { apply Forall_app. split; [exact At|]. destruct v1 as [d|]; [exact (F1 d x eq_refl X)|subst x; constructor]. }
    assert (AS : forall k, ascii ((t ++ x) ++ repeat space k)).
    { intros k. apply Forall_app. split; [exact Ax|]. apply Forall_forall. intros c I. apply repeat_spec in I. subst c. unfold space. lia. }
    inversion SA as [? ? Q1 Q2 Q3 Q4|? ? ? ? SN|? ? ? SN|? d ? ? ND SN|? ? k ? ? K1 K2 SN]; subst.
    + destruct l1; discriminate.
    + eapply IH; [exact Ax|exact F2|exact SN].
    + eapply IH; [exact Ax|exact F2|exact SN].
    + eapply IH; [apply (AS 1)|exact F2|exact SN].
    + eapply IH; [apply (AS k)|exact F2|exact SN].
Qed.

(** * COLOR and LOCATE *)

Section Ranges.
Variable arg : nat -> N.
Variable text_of : N -> option ustr.
Variable args_pos : list linecol.

Lemma get_color_in k z : as_i32 (arg k) = z -> is_color z -> get_color arg args_pos k = Some (Ok (Some (Z.to_N z))).
Proof. intros E [A B]. unfold get_color. rewrite E. destruct (Z.leb_spec 0 z), (Z.leb_spec z 255); try lia. reflexivity. Qed.
Lemma get_color_out k z p : as_i32 (arg k) = z -> ~ is_color z -> nth_error args_pos k = Some p ->
  get_color arg args_pos k = Some (Err (Some p, u "Color out of range")).
Proof.
  intros E N1 P. unfold get_color, syntax_error. rewrite E, P. unfold is_color in N1.
  destruct (Z.leb_spec 0 z), (Z.leb_spec z 255); try reflexivity. lia.
Qed.

Lemma color_arg_given reg (v : option Z) sep rest :
  given_from arg text_of reg (match v with Some z => [GTag (VImmediate sep TInteger); GValue (CInt z)] | None => [GTag (VMissing sep)] end ++ rest) ->
  reg < length args_pos ->
  color_arg arg args_pos reg = match v with
    | Some z => match get_color arg args_pos (S reg) with Some (Ok c) => Some (Ok (c, S (S reg))) | Some (Err e) => Some (Err e) | None => None end
    | None => Some (Ok (None, S reg))
    end.
Proof.
  intros G LT. unfold color_arg, nargs. destruct (Nat.ltb_spec reg (length args_pos)) as [_|]; [|lia].
  destruct v as [z|]; apply given_cons in G; destruct G as [G _]; cbn [Cmds_Spec.given_at] in G; rewrite G, vararg_roundtrip; reflexivity.
Qed.
End Ranges.

Lemma color_full : forall arg text_of pos a b, given_from arg text_of 0 (color_slots a b) ->
  length pos = length (color_slots a b) ->
  (may_color a -> may_color b -> color_exec arg pos = Some (Ok (OpColor (color_of a) (color_of b)))) /\
  (forall z p, a = Some z -> ~ is_color z -> nth_error pos 1 = Some p ->
     color_exec arg pos = Some (Err (Some p, u "Color out of range"))) /\
  (forall z p, may_color a -> b = Some z -> ~ is_color z -> nth_error pos (second_slot a) = Some p ->
     color_exec arg pos = Some (Err (Some p, u "Color out of range"))).
Proof.
  intros arg text_of pos a b G LE.
  assert (L2 : 2 <= length (color_slots a b)) by (destruct a, b; cbn; lia).
  assert (E : color_exec arg pos = match color_arg arg pos 0 with
      | Some (Ok (fg, reg)) => match color_arg arg pos reg with
          | Some (Ok (bg, _)) => Some (Ok (OpColor fg bg)) | Some (Err e) => Some (Err e) | None => None end
      | Some (Err e) => Some (Err e) | None => None end).
  { unfold color_exec, nargs. destruct (Nat.eqb_spec (length pos) 0), (Nat.eqb_spec (length pos) 1); try lia. reflexivity. }
  unfold color_slots in G. pose proof (color_arg_given arg text_of pos 0 a SepLong _ G ltac:(lia)) as E1.
  assert (A0 : forall z, a = Some z -> as_i32 (arg 1) = z).
  { intros z ->. apply given_cons in G. destruct G as [_ G]. apply given_cons in G. exact (proj1 G). }
  assert (G2 : given_from arg text_of (match a with Some _ => 2 | None => 1 end)
                 (match b with Some z => [GTag (VImmediate SepEnd TInteger); GValue (CInt z)] | None => [GTag (VMissing SepEnd)] end ++ [])).
  { rewrite app_nil_r. destruct a; apply given_cons in G; destruct G as [_ G]; [apply given_cons in G; destruct G as [_ G]|]; exact G. }
  pose proof (color_arg_given arg text_of pos _ b SepEnd [] G2 ltac:(destruct a, b; cbn in LE; lia)) as E2.
  assert (B0 : forall z, b = Some z -> as_i32 (arg (second_slot a)) = z).
  { intros z ->. apply given_cons in G2. destruct G2 as [_ G2]. apply given_cons in G2. destruct a; exact (proj1 G2). }
  split; [|split].
  - intros MA MB. rewrite E, E1. destruct a as [x|].
    + rewrite (get_color_in arg pos 1 x (A0 x eq_refl) (MA x eq_refl)), E2. destruct b as [y|]; [|reflexivity].
      rewrite (get_color_in arg pos 3 y (B0 y eq_refl) (MB y eq_refl)). reflexivity.
    + rewrite E2. destruct b as [y|]; [|reflexivity]. rewrite (get_color_in arg pos 2 y (B0 y eq_refl) (MB y eq_refl)). reflexivity.
  - intros z p -> NC P. rewrite E, E1, (get_color_out arg pos 1 z p (A0 z eq_refl) NC P). reflexivity.
  - intros z p MA -> NC P. rewrite E, E1. destruct a as [x|].
    + rewrite (get_color_in arg pos 1 x (A0 x eq_refl) (MA x eq_refl)), E2, (get_color_out arg pos 3 z p (B0 z eq_refl) NC P). reflexivity.
    + rewrite E2, (get_color_out arg pos 2 z p (B0 z eq_refl) NC P). reflexivity.
Qed.
Lemma color_short : forall arg z p, as_i32 (arg 0) = z ->
  (is_color z -> color_exec arg [p] = Some (Ok (OpColor (Some (Z.to_N z)) None))) /\
  (~ is_color z -> color_exec arg [p] = Some (Err (Some p, u "Color out of range"))) /\
  color_exec arg [] = Some (Ok (OpColor None None)).
Proof.
  intros arg z p E. split; [|split; [|reflexivity]]; intros C; unfold color_exec, nargs; cbn [length Nat.eqb].
  - rewrite (get_color_in arg [p] 0 z E C). reflexivity.
  - rewrite (get_color_out arg [p] 0 z p E C eq_refl). reflexivity.
Qed.
Lemma locate_full : forall arg column row sx sy p q, as_i32 (arg 0) = column -> as_i32 (arg 1) = row ->
  (0 < sx < 2 ^ 16)%N -> (0 < sy < 2 ^ 16)%N ->
  let r := locate_exec arg [p; q] (Ok (sx, sy)) in
  ((0 <= column < Z.of_N sx)%Z -> (0 <= row < Z.of_N sy)%Z -> r = Some (Ok (OpLocate (Z.to_N column) (Z.to_N row)))) /\
  (~ (0 <= column < 2 ^ 16)%Z -> r = Some (Err (Some p, u "Column out of range"))) /\
  ((0 <= column < 2 ^ 16)%Z -> ~ (0 <= row < 2 ^ 16)%Z -> r = Some (Err (Some q, u "Row out of range"))) /\
  ((Z.of_N sx <= column < 2 ^ 16)%Z -> (0 <= row < 2 ^ 16)%Z ->
     exists msg, r = Some (Err (Some p, msg)) /\ too_large (u "Column") column sx msg) /\
  ((0 <= column < Z.of_N sx)%Z -> (Z.of_N sy <= row < 2 ^ 16)%Z ->
     exists msg, r = Some (Err (Some q, msg)) /\ too_large (u "Row") row sy msg).
Proof.
  intros arg column row sx sy p q EC ER SX SY.
  assert (GC : forall k name z, as_i32 (arg k) = z -> (0 <= z < 2 ^ 16)%Z -> get_coord arg [p; q] k name = Some (Ok (Z.to_N z))).
  { intros k name z E R. unfold get_coord. rewrite E. destruct (Z.leb_spec 0 z), (Z.ltb_spec z (2 ^ 16)); try lia. reflexivity. }
  assert (GN : forall k name z pk, as_i32 (arg k) = z -> ~ (0 <= z < 2 ^ 16)%Z -> nth_error [p; q] k = Some pk ->
    get_coord arg [p; q] k name = Some (Err (Some pk, name ++ u " out of range"))).
  { intros k name z pk E R P. unfold get_coord, syntax_error. rewrite E, P. destruct (Z.leb_spec 0 z), (Z.ltb_spec z (2 ^ 16)); try reflexivity. lia. }
  assert (EX : forall k name z size pk, nth_error [p; q] k = Some pk -> (0 < size)%N -> (0 <= z)%Z ->
    exists msg, exceeds [p; q] k name (Z.to_N z) size = Some (Err (Some pk, msg)) /\ too_large name z size msg).
  { intros k name z size pk P S0 Z0. unfold exceeds, syntax_error. rewrite P. destruct (N.eqb_spec size 0); [lia|].
    eexists. split; [reflexivity|]. rewrite Z2N.id by exact Z0.
    destruct (to_string_numeral z) as (d & D & ->). destruct (to_string_numeral (Z.of_N size - 1)) as (d' & D' & ->).
    exists d, d'. split; [exact D|]. split; [exact D'|].
    destruct (Z.ltb_spec z 0), (Z.ltb_spec (Z.of_N size - 1) 0); try lia. reflexivity. }
  cbv zeta. unfold locate_exec. split; [|split; [|split; [|split]]].
  - intros C R. rewrite (GC 0 _ _ EC) by lia. rewrite (GC 1 _ _ ER) by lia.
    destruct (N.leb_spec sx (Z.to_N column)), (N.leb_spec sy (Z.to_N row)); try lia. reflexivity.
  - intros C. rewrite (GN 0 _ _ p EC C eq_refl). reflexivity.
  - intros C R. rewrite (GC 0 _ _ EC C), (GN 1 _ _ q ER R eq_refl). reflexivity.
  - intros C R. rewrite (GC 0 _ _ EC) by lia. rewrite (GC 1 _ _ ER R).
    destruct (N.leb_spec sx (Z.to_N column)); [|lia]. apply EX; [reflexivity|lia|lia].
  - intros C R. rewrite (GC 0 _ _ EC) by lia. rewrite (GC 1 _ _ ER) by lia.
    destruct (N.leb_spec sx (Z.to_N column)); [lia|]. destruct (N.leb_spec sy (Z.to_N row)); [|lia]. apply EX; [reflexivity|lia|lia].
Qed.

Lemma too_large_unique name z size a b : too_large name z size a -> too_large name z size b -> a = b.
Proof.
  intros (d & d' & A & B & ->) (e & e' & A' & B' & ->). rewrite (numeral_unique _ _ _ A A'), (numeral_unique _ _ _ B B'). reflexivity.
Qed.

(** What the commands do with what they are given. *)
Definition performs (e : exec_result con_op) (r : res ustr con_op) : Prop :=
  match r with Ok op => e = Some (Ok op) | Err msg => exists p, e = Some (Err (p, msg)) end.
Lemma color_performs arg text_of pos gs r : color_does gs r -> given_from arg text_of 0 gs -> length pos = length gs ->
  performs (color_exec arg pos) r.
Proof.
  intros C G LE. destruct C as [|z IC|a b MA MB|z NC|a b NM]; cbn [performs].
  - destruct pos; [reflexivity|discriminate LE].
  - destruct pos as [|p [|]]; try discriminate LE. apply (color_short arg z p (proj1 (given_cons _ _ _ _ _ G))), IC.
  - apply (color_full arg text_of pos a b G LE); assumption.
  - destruct pos as [|p [|]]; try discriminate LE. eexists. apply (color_short arg z p (proj1 (given_cons _ _ _ _ _ G))), NC.
  - assert (DC : forall v, may_color v \/ exists z, v = Some z /\ ~ is_color z).
    { intros [z|]; [|left; intros z E; discriminate E]. unfold may_color, is_color.
      destruct (Z_le_dec 0 z), (Z_le_dec z 255); [left; intros y E; injection E as <-; lia|right; exists z; split; [reflexivity|lia]..]. }
    assert (NT : forall i, i < length (color_slots a b) -> exists p, nth_error pos i = Some p).
    { intros i L. destruct (nth_error pos i) as [p|] eqn:Q; [exists p; reflexivity|]. apply nth_error_None in Q. lia. }
    destruct (DC a) as [MA|(z & -> & NC)].
    + destruct (DC b) as [MB|(z & -> & NC)]; [exfalso; apply NM; auto|].
      destruct (NT (second_slot a)) as (p & P); [destruct a; cbn; lia|]. exists (Some p).
      apply (proj2 (proj2 (color_full arg text_of pos a (Some z) G LE)) z p MA eq_refl NC P).
    + destruct (NT 1) as (p & P); [destruct b; cbn; lia|]. exists (Some p).
      apply (proj1 (proj2 (color_full arg text_of pos (Some z) b G LE)) z p eq_refl NC P).
Qed.
Lemma locate_performs arg text_of pos size gs r : locate_does size gs r -> given_from arg text_of 0 gs -> length pos = length gs ->
  performs (locate_exec arg pos size) r.
Proof.
  intros C G LE.
  assert (X : exists x y p q, gs = [GValue (CInt x); GValue (CInt y)] /\ pos = [p; q] /\ as_i32 (arg 0) = x /\ as_i32 (arg 1) = y).
  { assert (Y : exists x y, gs = [GValue (CInt x); GValue (CInt y)]) by (destruct C; eauto). destruct Y as (x & y & ->).
    destruct pos as [|p [|q [|]]]; try discriminate LE. exists x, y, p, q. split; [reflexivity|]. split; [reflexivity|].
    apply given_cons in G. destruct G as [A G]. apply given_cons in G. destruct G as [B _]. auto. }
  destruct X as (x0 & y0 & p & q & E & -> & A & B).
  destruct C as [sx sy x y -> SX SY IX IY|x y OX|x y IX OY|x y msg IX IY ->|sx sy x y msg -> SX SY IX IY TL|sx sy x y msg -> SX SY IX IY TL];
    injection E as <- <-; cbn [performs].
  - apply (locate_full arg x y sx sy p q A B SX SY); assumption.
  - eexists. unfold locate_exec, get_coord. rewrite A.
    destruct (Z.leb_spec 0 x), (Z.ltb_spec x (2 ^ 16)); try reflexivity. lia.
  - eexists. unfold locate_exec, get_coord. rewrite A, B. destruct (Z.leb_spec 0 x), (Z.ltb_spec x (2 ^ 16)); try lia. cbn [andb].
    destruct (Z.leb_spec 0 y), (Z.ltb_spec y (2 ^ 16)); try reflexivity. lia.
  - eexists. unfold locate_exec, get_coord. rewrite A, B. destruct (Z.leb_spec 0 x), (Z.ltb_spec x (2 ^ 16)); try lia. cbn [andb].
    destruct (Z.leb_spec 0 y), (Z.ltb_spec y (2 ^ 16)); try lia. reflexivity.
  - destruct (proj1 (proj2 (proj2 (proj2 (locate_full arg x y sx sy p q A B SX SY)))) IX IY) as (msg' & E1 & TL').
    exists (Some p). rewrite (too_large_unique _ _ _ _ _ TL TL'). exact E1.
  - destruct (proj2 (proj2 (proj2 (proj2 (locate_full arg x y sx sy p q A B SX SY)))) IX IY) as (msg' & E1 & TL').
    exists (Some q). rewrite (too_large_unique _ _ _ _ _ TL TL'). exact E1.
Qed.
