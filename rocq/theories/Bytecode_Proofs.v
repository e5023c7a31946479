(** Lemmas about the instruction encoding. *)
From Verif Require Import Base Bytecode_Model Bytecode_Spec.
Local Open Scope N_scope.

Lemma lor_shiftl_add a b n : b < 2 ^ n -> N.lor (N.shiftl a n) b = a * 2 ^ n + b.
Proof.
  intros Hb.
  rewrite N.lor_comm, <- N.shiftl_mul_pow2.
  assert (Hl : N.land b (N.shiftl a n) = 0).
  { apply N.bits_inj. intros k. rewrite N.land_spec, N.bits_0.
    destruct (N.lt_ge_cases k n) as [Hk|Hk].
    - rewrite N.shiftl_spec_low by exact Hk. apply andb_false_r.
    - destruct (N.eq_dec b 0) as [->|Hb0]; [rewrite N.bits_0; reflexivity|].
      rewrite (N.bits_above_log2 b k); [reflexivity|].
      apply N.log2_lt_pow2 in Hb; [|lia]. lia. }
  rewrite (N.add_comm (N.shiftl a n) b).
  symmetry. rewrite <- N.lxor_lor by exact Hl. apply N.add_nocarry_lxor. exact Hl.
Qed.

Lemma field8 v off : v < 256 -> field 0xff off v = v * 2 ^ off.
Proof.
  intros H. unfold field. change 0xff with (N.ones 8). rewrite N.land_ones.
  rewrite N.mod_small by exact H. apply N.shiftl_mul_pow2.
Qed.

Lemma field16 v off : v < 65536 -> field 0xffff off v = v * 2 ^ off.
Proof.
  intros H. unfold field. change 0xffff with (N.ones 16). rewrite N.land_ones.
  rewrite N.mod_small by exact H. apply N.shiftl_mul_pow2.
Qed.

Lemma get_field8 w off : get_field 0xff off w = (w / 2 ^ off) mod 256.
Proof.
  unfold get_field. change 0xff with (N.ones 8). rewrite N.land_ones, N.shiftr_div_pow2.
  reflexivity.
Qed.

Lemma get_field16 w off : get_field 0xffff off w = (w / 2 ^ off) mod 65536.
Proof.
  unfold get_field. change 0xffff with (N.ones 16). rewrite N.land_ones, N.shiftr_div_pow2.
  reflexivity.
Qed.

Lemma opcode_of_eq w : opcode_of w = (w / 2 ^ 24) mod 256.
Proof. apply get_field8. Qed.

Lemma lor_mul_add a b n : b < 2 ^ n -> N.lor (a * 2 ^ n) b = a * 2 ^ n + b.
Proof. intros H. rewrite <- N.shiftl_mul_pow2 at 1. apply lor_shiftl_add. exact H. Qed.

Definition w3 (op a b c : N) : N := op * 16777216 + a * 65536 + b * 256 + c.

Lemma make3_eq op a b c :
  a < 256 -> b < 256 -> c < 256 ->
  make3 op (field 0xff 16 a) (field 0xff 8 b) (field 0xff 0 c) = w3 op a b c.
Proof.
  intros Ha Hb Hc. unfold make3, w3. rewrite !field8 by assumption.
  rewrite lor_shiftl_add by (change (2^16) with 65536; change (2^24) with 16777216; lia).
  replace (op * 2 ^ 24 + a * 2 ^ 16) with ((op * 2^8 + a) * 2^16)
    by (change (2^24) with 16777216; change (2^8) with 256; change (2^16) with 65536; lia).
  rewrite lor_mul_add by (change (2^8) with 256; change (2^16) with 65536; lia).
  replace ((op * 2 ^ 8 + a) * 2 ^ 16 + b * 2 ^ 8) with (((op * 2^8 + a) * 2^8 + b) * 2 ^ 8)
    by (change (2^24) with 16777216; change (2^8) with 256; change (2^16) with 65536; lia).
  rewrite lor_mul_add by (change (2^8) with 256; change (2^0) with 1; lia).
  change (2^8) with 256. change (2^0) with 1. lia.
Qed.

Definition w2 (op a b : N) : N := op * 16777216 + a * 65536 + b.

Lemma make2_8_16 op a b :
  a < 256 -> b < 65536 ->
  make2 op (field 0xff 16 a) (field 0xffff 0 b) = w2 op a b.
Proof.
  intros Ha Hb. unfold make2, w2. rewrite field8, field16 by assumption.
  rewrite lor_shiftl_add by (change (2^16) with 65536; change (2^24) with 16777216; lia).
  replace (op * 2 ^ 24 + a * 2 ^ 16) with ((op * 2^8 + a) * 2^16)
    by (change (2^24) with 16777216; change (2^8) with 256; change (2^16) with 65536; lia).
  rewrite lor_mul_add by (change (2^16) with 65536; change (2^0) with 1; lia).
  change (2^8) with 256; change (2^16) with 65536; change (2^0) with 1; lia.
Qed.

Definition w2' (op a b : N) : N := op * 16777216 + a * 256 + b.

Lemma make2_16_8 op a b :
  a < 65536 -> b < 256 ->
  make2 op (field 0xffff 8 a) (field 0xff 0 b) = w2' op a b.
Proof.
  intros Ha Hb. unfold make2, w2'. rewrite field8, field16 by assumption.
  rewrite lor_shiftl_add by (change (2^8) with 256; change (2^24) with 16777216; lia).
  replace (op * 2 ^ 24 + a * 2 ^ 8) with ((op * 2^16 + a) * 2^8)
    by (change (2^24) with 16777216; change (2^8) with 256; change (2^16) with 65536; lia).
  rewrite lor_mul_add by (change (2^8) with 256; change (2^0) with 1; lia).
  change (2^8) with 256; change (2^16) with 65536; change (2^0) with 1; lia.
Qed.

Lemma make2_8_8 op a b :
  a < 256 -> b < 256 ->
  make2 op (field 0xff 8 a) (field 0xff 0 b) = w2' op a b.
Proof.
  intros Ha Hb. unfold make2, w2'. rewrite !field8 by assumption.
  rewrite lor_shiftl_add by (change (2^8) with 256; change (2^24) with 16777216; lia).
  replace (op * 2 ^ 24 + a * 2 ^ 8) with ((op * 2^16 + a) * 2^8)
    by (change (2^24) with 16777216; change (2^8) with 256; change (2^16) with 65536; lia).
  rewrite lor_mul_add by (change (2^8) with 256; change (2^0) with 1; lia).
  change (2^8) with 256; change (2^16) with 65536; change (2^0) with 1; lia.
Qed.

Definition w1 (op a : N) : N := op * 16777216 + a.

Lemma make1_8 op a : a < 256 -> make1 op (field 0xff 0 a) = w1 op a.
Proof.
  intros Ha. unfold make1, w1. rewrite field8 by assumption.
  rewrite lor_shiftl_add by (change (2^0) with 1; change (2^24) with 16777216; lia).
  change (2^0) with 1; change (2^24) with 16777216; lia.
Qed.

Lemma make1_16 op a : a < 65536 -> make1 op (field 0xffff 0 a) = w1 op a.
Proof.
  intros Ha. unfold make1, w1. rewrite field16 by assumption.
  rewrite lor_shiftl_add by (change (2^0) with 1; change (2^24) with 16777216; lia).
  change (2^0) with 1; change (2^24) with 16777216; lia.
Qed.

Lemma make0_eq op : make0 op = op * 16777216.
Proof. unfold make0. rewrite N.shiftl_mul_pow2. reflexivity. Qed.

Ltac pows := change (2^24) with 16777216 in *; change (2^16) with 65536 in *;
             change (2^8) with 256 in *; change (2^0) with 1 in *.

Ltac nf := rewrite ?opcode_of_eq, ?get_field8, ?get_field16; pows;
           unfold w3, w2, w2', w1 in *; lia.

Lemma etype_of_code t : etype_of (etype_code t) = Some t.
Proof. destruct t; reflexivity. Qed.

Lemma etype_code_lt t : etype_code t < 4.
Proof. destruct t; cbn; lia. Qed.

Lemma ehmode_of_code t : ehmode_of (ehmode_code t) = Some t.
Proof. destruct t; reflexivity. Qed.

Lemma ehmode_code_lt t : ehmode_code t < 3.
Proof. destruct t; cbn; lia. Qed.

Lemma op3_code_lt o : op3_code o < 62.
Proof. destruct o; cbn; lia. Qed.

Lemma op1_code_lt o : op1_code o < 62.
Proof. destruct o; cbn; lia. Qed.

Lemma op3_of_code o : op3_of (op3_code o) = Some o.
Proof. destruct o; reflexivity. Qed.

Lemma op1_of_code o : op3_of (op1_code o) = None /\ op1_of (op1_code o) = Some o.
Proof. destruct o; split; reflexivity. Qed.

Lemma decode_encode i : in_range i -> decode (encode i) = Some i.
Proof.
  destruct i; cbn [in_range encode]; intros H.
  - destruct H as (H1 & H2 & H3). rewrite make3_eq by assumption.
    assert (Ho := op3_code_lt o).
    unfold decode. replace (opcode_of _) with (op3_code o) by nf.
    rewrite op3_of_code. repeat f_equal; nf.
  - rewrite make1_8 by assumption. assert (Ho := op1_code_lt o).
    unfold decode. replace (opcode_of _) with (op1_code o) by nf.
    destruct (op1_of_code o) as [-> ->]. repeat f_equal; nf.
  - assert (Ht := etype_code_lt t). rewrite make2_8_8 by lia.
    unfold decode. replace (opcode_of _) with code_Alloc by (unfold code_Alloc; nf).
    change (op3_of code_Alloc) with (@None op3); change (op1_of code_Alloc) with (@None op1).
    change (code_Alloc =? code_Alloc) with true. cbv iota.
    replace (get_field 0xff 0 _) with (etype_code t) by (unfold code_Alloc; nf).
    rewrite etype_of_code. repeat f_equal; unfold code_Alloc; nf.
  - destruct H as (H1 & H2 & H3). rewrite make3_eq by assumption.
    unfold decode. replace (opcode_of _) with code_AllocArray by (unfold code_AllocArray; nf).
    cbn -[get_field w3]. repeat f_equal; unfold code_AllocArray; nf.
  - destruct H as (H1 & H2). rewrite make2_8_16 by assumption.
    unfold decode. replace (opcode_of _) with code_Call by (unfold code_Call; nf).
    cbn -[get_field w2]. repeat f_equal; unfold code_Call; nf.
  - rewrite make1_16 by assumption.
    unfold decode. replace (opcode_of _) with code_Gosub by (unfold code_Gosub; nf).
    cbn -[get_field w1]. repeat f_equal; unfold code_Gosub; nf.
  - rewrite make1_16 by assumption.
    unfold decode. replace (opcode_of _) with code_Jump by (unfold code_Jump; nf).
    cbn -[get_field w1]. repeat f_equal; unfold code_Jump; nf.
  - destruct H as (H1 & H2). rewrite make2_8_16 by assumption.
    unfold decode. replace (opcode_of _) with code_JumpIfFalse by (unfold code_JumpIfFalse; nf).
    cbn -[get_field w2]. repeat f_equal; unfold code_JumpIfFalse; nf.
  - destruct H as (H1 & H2). rewrite make2_8_16 by assumption.
    unfold decode. replace (opcode_of _) with code_LoadConstant by (unfold code_LoadConstant; nf).
    cbn -[get_field w2]. repeat f_equal; unfold code_LoadConstant; nf.
  - destruct H as (H1 & H2). rewrite make2_8_16 by assumption.
    unfold decode. replace (opcode_of _) with code_LoadInteger by (unfold code_LoadInteger; nf).
    cbn -[get_field w2]. repeat f_equal; unfold code_LoadInteger; nf.
  - destruct H as (H1 & H2). assert (Ht := etype_code_lt t).
    rewrite make3_eq by (assumption || lia).
    unfold decode. replace (opcode_of _) with code_LoadRegPtr by (unfold code_LoadRegPtr; nf).
    cbn -[get_field w3 etype_code etype_of].
    replace (get_field 255 8 _) with (etype_code t) by (unfold code_LoadRegPtr; nf).
    rewrite etype_of_code. repeat f_equal; unfold code_LoadRegPtr; nf.
  - destruct H as (H1 & H2). rewrite make2_8_8 by assumption.
    unfold decode. replace (opcode_of _) with code_Move by (unfold code_Move; nf).
    cbn -[get_field w2']. repeat f_equal; unfold code_Move; nf.
  - reflexivity.
  - reflexivity.
  - assert (Ht := ehmode_code_lt m). rewrite make2_8_16 by (assumption || lia).
    unfold decode.
    replace (opcode_of _) with code_SetErrorHandler by (unfold code_SetErrorHandler; nf).
    cbn -[get_field w2 ehmode_code ehmode_of].
    replace (get_field 255 16 _) with (ehmode_code m) by (unfold code_SetErrorHandler; nf).
    rewrite ehmode_of_code. repeat f_equal; unfold code_SetErrorHandler; nf.
  - destruct H as (H1 & H2). rewrite make2_16_8 by assumption.
    unfold decode. replace (opcode_of _) with code_Upcall by (unfold code_Upcall; nf).
    cbn -[get_field w2']. repeat f_equal; unfold code_Upcall; nf.
  - destruct H as (H1 & H2). rewrite make2_16_8 by assumption.
    unfold decode. replace (opcode_of _) with code_UpcallAsync by (unfold code_UpcallAsync; nf).
    cbn -[get_field w2']. repeat f_equal; unfold code_UpcallAsync; nf.
  - reflexivity.
Qed.

Lemma encode_fits i : in_range i -> encode i < 2 ^ 32.
Proof.
  change (2^32) with 4294967296.
  destruct i; cbn [in_range encode]; intros H;
    try (assert (Ho := op3_code_lt o)); try (assert (Ho := op1_code_lt o));
    try (assert (Ht := etype_code_lt t)); try (assert (Hm := ehmode_code_lt m));
    rewrite ?make3_eq, ?make2_8_16, ?make2_16_8, ?make2_8_8, ?make1_8, ?make1_16, ?make0_eq
      by (first [tauto | lia]);
    unfold w3, w2, w2', w1, code_Alloc, code_AllocArray, code_Call, code_Gosub, code_Jump,
      code_JumpIfFalse, code_LoadConstant, code_LoadInteger, code_LoadRegPtr, code_Move,
      code_Nop, code_Return, code_SetErrorHandler, code_Upcall, code_UpcallAsync, code_Eof;
    lia.
Qed.

Lemma encode_inj i j : in_range i -> in_range j -> encode i = encode j -> i = j.
Proof.
  intros Hi Hj H. apply decode_encode in Hi. apply decode_encode in Hj. congruence.
Qed.

(** Registers. *)
Lemma tagged_ref_roundtrip reg fp t v :
  tagged_ref_new reg fp t = Some v ->
  tagged_ref_parse v =
    Some (if reg <? 64 then reg else reg - 64 + fp, t).
Proof.
  unfold tagged_ref_new, register_to_parts, max_global.
  assert (Ht := etype_code_lt t).
  destruct (reg <? 64) eqn:E.
  - destruct (reg <? 2^32) eqn:E2; [|discriminate]. intros [= <-].
    rewrite lor_shiftl_add by lia. unfold tagged_ref_parse.
    change 0xff with (N.ones 8). change 0xffffffff with (N.ones 32).
    rewrite !N.land_ones, N.shiftr_div_pow2.
    change (2^32) with 4294967296 in *. change (2^8) with 256.
    replace (((etype_code t * 4294967296 + reg) / 4294967296) mod 256) with (etype_code t) by lia.
    rewrite etype_of_code. do 2 f_equal; lia.
  - destruct (reg - 64 + fp <? 2^32) eqn:E2; [|discriminate]. intros [= <-].
    rewrite lor_shiftl_add by lia. unfold tagged_ref_parse.
    change 0xff with (N.ones 8). change 0xffffffff with (N.ones 32).
    rewrite !N.land_ones, N.shiftr_div_pow2.
    change (2^32) with 4294967296 in *. change (2^8) with 256.
    replace (((etype_code t * 4294967296 + (reg - 64 + fp)) / 4294967296) mod 256)
      with (etype_code t) by lia.
    rewrite etype_of_code. do 2 f_equal; lia.
Qed.

Lemma packed_roundtrip t n p :
  packed_new t n = Some p -> packed_subtype p = Some t /\ packed_ndims p = n /\ p < 256.
Proof.
  unfold packed_new. destruct (15 <? n) eqn:E; [discriminate|]. intros [= <-].
  assert (Ht := etype_code_lt t).
  change 0x0f with (N.ones 4). rewrite N.land_ones. change (2^4) with 16.
  rewrite lor_shiftl_add by (change (2^4) with 16; lia).
  unfold packed_subtype, packed_ndims. change 0x0f with (N.ones 4).
  rewrite N.land_ones, N.shiftr_div_pow2. change (2^4) with 16.
  replace ((etype_code t * 16 + n mod 16) / 16) with (etype_code t) by lia.
  rewrite etype_of_code. repeat split; lia.
Qed.

Lemma vararg_roundtrip v : vararg_parse (vararg_make v) = Some v.
Proof. destruct v as [s|s t|s]; destruct s; try destruct t; reflexivity. Qed.

Lemma vararg_parse_canonical_4096 :
  forallb (fun k => match vararg_parse (N.of_nat k) with
                    | Some v => vararg_make v =? N.of_nat k | None => true end)
          (seq 0 4096) = true.
Proof. vm_compute. reflexivity. Qed.

Lemma vararg_parse_canonical n v : vararg_parse n = Some v -> n = vararg_make v.
Proof.
  intros H.
  assert (Hn : n < 4096).
  { unfold vararg_parse in H. destruct (N.shiftr n 12 =? 0) eqn:E; [|discriminate].
    apply N.eqb_eq in E. rewrite N.shiftr_div_pow2 in E. change (2^12) with 4096 in E. lia. }
  assert (Hall := vararg_parse_canonical_4096).
  rewrite forallb_forall in Hall. specialize (Hall (N.to_nat n)).
  rewrite N2Nat.id, H in Hall. symmetry. apply N.eqb_eq. apply Hall.
  apply in_seq. lia.
Qed.

Lemma registers_char :
  (forall slot r, register_global slot = Some r <-> slot < 64 /\ r = slot) /\
  (forall slot r, register_local slot = Some r <-> slot < 192 /\ r = slot + 64) /\
  (forall slot r, register_global slot = Some r -> register_to_parts r = (true, slot)) /\
  (forall slot r, register_local slot = Some r -> register_to_parts r = (false, slot)) /\
  (forall g l r, register_global g = Some r -> register_local l = Some r -> False).
Proof.
  unfold register_global, register_local, register_to_parts, max_global, max_register.
  repeat split.
  - destruct (slot <? 64) eqn:E; [lia|discriminate].
  - destruct (slot <? 64) eqn:E; [congruence|discriminate].
  - intros [H ->]. destruct (slot <? 64) eqn:E; [reflexivity|lia].
  - destruct (slot + 64 <=? 255) eqn:E; [lia|discriminate].
  - destruct (slot + 64 <=? 255) eqn:E; [congruence|discriminate].
  - intros [H ->]. destruct (slot + 64 <=? 255) eqn:E; [reflexivity|lia].
  - intros slot r. destruct (slot <? 64) eqn:E; [|discriminate]. intros [= <-]. rewrite E. reflexivity.
  - intros slot r. destruct (slot + 64 <=? 255) eqn:E; [|discriminate]. intros [= <-].
    destruct (slot + 64 <? 64) eqn:E2; [lia|]. f_equal. lia.
  - intros g l r. destruct (g <? 64) eqn:E; [|discriminate]. intros [= <-].
    destruct (l + 64 <=? 255) eqn:E2; [|discriminate]. intros [= ?]. lia.
Qed.

Lemma tagged_ref_char reg fp t :
  reg < 256 -> fp + 256 < 2 ^ 32 ->
  exists v, tagged_ref_new reg fp t = Some v /\ v < 2 ^ 64 /\
            tagged_ref_parse v = Some (absolute_slot reg fp, t).
Proof.
  intros Hr Hf. destruct (tagged_ref_new reg fp t) as [v|] eqn:E.
  - exists v. split; [reflexivity|]. pose proof (tagged_ref_roundtrip _ _ _ _ E) as H. split.
    + unfold tagged_ref_new, register_to_parts, max_global in E.
      pose proof (etype_code_lt t).
      destruct (reg <? 64); [destruct (reg <? 2^32) eqn:E3 | destruct (reg - 64 + fp <? 2^32) eqn:E3];
        try discriminate; injection E as <-; rewrite lor_shiftl_add by lia;
        change (2^32) with 4294967296 in *; change (2^64) with 18446744073709551616; lia.
    + rewrite H. unfold absolute_slot. destruct (reg <? 64); do 2 f_equal; lia.
  - exfalso. unfold tagged_ref_new, register_to_parts, max_global in E.
    change (2^32) with 4294967296 in *.
    destruct (reg <? 64) eqn:E1; [destruct (reg <? 4294967296) eqn:E2
      | destruct (reg - 64 + fp <? 4294967296) eqn:E2]; try discriminate; lia.
Qed.

Lemma packed_char t n :
  (n <= 15 -> exists p, packed_new t n = Some p /\ p < 256 /\
                        packed_subtype p = Some t /\ packed_ndims p = n) /\
  (15 < n -> packed_new t n = None).
Proof.
  split.
  - intros H. destruct (packed_new t n) as [p|] eqn:E.
    + exists p. apply packed_roundtrip in E. tauto.
    + unfold packed_new in E. destruct (15 <? n) eqn:E2; [lia|discriminate].
  - intros H. unfold packed_new. destruct (15 <? n) eqn:E2; [reflexivity|lia].
Qed.

Lemma exit_code_char v :
  (forall c, exit_code_try_new v = Some c -> exit_code_to_i32 c = v) /\
  ((exists c, exit_code_try_new v = Some c) <-> (0 <= v <= 127)%Z) /\
  (forall c, exit_code_try_new v = Some c -> (exit_code_is_success c = true <-> v = 0%Z)).
Proof.
  unfold exit_code_try_new, exit_code_to_i32, exit_code_is_success.
  destruct ((0 <=? v) && (v <? 128))%Z eqn:E.
  - split; [|split].
    + intros c [= <-]. lia.
    + split; [lia|]. intros _. eexists; reflexivity.
    + intros c [= <-]. lia.
  - split; [|split]; try discriminate. split; [intros [c H]; discriminate | lia].
Qed.

Lemma vararg_char :
  (forall v, vararg_make v < 2 ^ 16 /\ vararg_parse (vararg_make v) = Some v) /\
  (forall n v, vararg_parse n = Some v -> n = vararg_make v).
Proof.
  split; [|exact vararg_parse_canonical].
  intros v. split; [|apply vararg_roundtrip].
  destruct v as [s|s t|s]; destruct s; try destruct t; vm_compute; reflexivity.
Qed.
