(** Properties C01-C03: instruction words, registers, packed descriptors. *)
From Verif Require Import Base Bytecode_Model Bytecode_Spec Bytecode_Proofs.
Local Open Scope N_scope.

Theorem C01_instruction_roundtrip :
  forall i, in_range i -> encode i < 2 ^ 32 /\ decode (encode i) = Some i.
Proof. exact (fun i H => conj (encode_fits i H) (decode_encode i H)). Qed.
Print Assumptions C01_instruction_roundtrip.

Theorem C01_instructions_distinct :
  forall i j, in_range i -> in_range j -> encode i = encode j -> i = j.
Proof. exact encode_inj. Qed.
Print Assumptions C01_instructions_distinct.

Example C01_case :
  in_range (I3 StoreArray 66 255 64) /\ in_range (IUpcallAsync 65535 200) /\
  encode (I3 StoreArray 66 255 64) = 0x3742ff40 /\ encode (IUpcallAsync 65535 200) = 0x3cffffc8.
Proof. cbn; repeat split; lia. Qed.

Theorem C02_register_numbering :
  (forall slot r, register_global slot = Some r <-> slot < 64 /\ r = slot) /\
  (forall slot r, register_local slot = Some r <-> slot < 192 /\ r = slot + 64) /\
  (forall slot r, register_global slot = Some r -> register_to_parts r = (true, slot)) /\
  (forall slot r, register_local slot = Some r -> register_to_parts r = (false, slot)) /\
  (forall g l r, register_global g = Some r -> register_local l = Some r -> False).
Proof. exact registers_char. Qed.
Print Assumptions C02_register_numbering.

Theorem C02_tagged_reference_roundtrip :
  forall reg fp t, reg < 256 -> fp + 256 < 2 ^ 32 ->
  exists v, tagged_ref_new reg fp t = Some v /\ v < 2 ^ 64 /\
            tagged_ref_parse v = Some (absolute_slot reg fp, t).
Proof. exact tagged_ref_char. Qed.
Print Assumptions C02_tagged_reference_roundtrip.

Example C02_case :
  register_local 191 = Some 255 /\ register_local 192 = None /\
  tagged_ref_new 70 100 TText = Some 0x30000006a /\
  tagged_ref_parse 0x30000006a = Some (106, TText).
Proof. repeat split. Qed.

Theorem C03_packed_array_type :
  forall t n,
  (n <= 15 -> exists p, packed_new t n = Some p /\ p < 256 /\
                        packed_subtype p = Some t /\ packed_ndims p = n) /\
  (15 < n -> packed_new t n = None).
Proof. exact packed_char. Qed.
Print Assumptions C03_packed_array_type.

Theorem C03_exit_code :
  forall v,
  (forall c, exit_code_try_new v = Some c -> exit_code_to_i32 c = v) /\
  ((exists c, exit_code_try_new v = Some c) <-> (0 <= v <= 127)%Z) /\
  (forall c, exit_code_try_new v = Some c -> (exit_code_is_success c = true <-> v = 0%Z)).
Proof. exact exit_code_char. Qed.
Print Assumptions C03_exit_code.

Theorem C03_vararg_tag :
  (forall v, vararg_make v < 2 ^ 16 /\ vararg_parse (vararg_make v) = Some v) /\
  (forall n v, vararg_parse n = Some v -> n = vararg_make v).
Proof. exact vararg_char. Qed.
Print Assumptions C03_vararg_tag.

Example C03_case :
  packed_new TDouble 15 = Some 31 /\ exit_code_try_new 127 = Some 127 /\
  vararg_make (VImmediate SepLong TText) = 0x123 /\ vararg_parse 0x104 = None /\
  vararg_parse 0x1003 = None.
Proof. repeat split. Qed.
