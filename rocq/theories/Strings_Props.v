(** C30: slicing; C31: INSTR; C32: ASC and CHR; C51: VAL; C52: trimming; C53: integers as text. *)
From Coq Require Import String.
From Verif Require Import Base Text_Model Text_Proofs Linebuf_Spec Strings_Model Strings_Spec Strings_Proofs.
Local Open Scope string_scope.
Local Open Scope list_scope.
Local Open Scope nat_scope.

(** LEFT returns the first [n] characters, or all of them. *)
Theorem C30_left : forall b s n, is_text b s ->
  if (n <? 0)%Z then fn_left b n = Some (Err (FnNegative 1))
  else exists r t, fn_left b n = Some (Ok r) /\ is_text r t /\
         part s 0 (Nat.min (Z.to_nat n) (length s)) t.
Proof.
  intros b s n [T ->]. unfold fn_left, char_len. rewrite chars_collect by assumption.
  destruct (n <? 0)%Z; [reflexivity|]. rewrite slice_chars by (try assumption; lia).
  rewrite Nat.min_comm. set (m := Nat.min (Z.to_nat n) (length s)). rewrite Nat.sub_0_r. cbn [skipn ret_slice].
  do 2 eexists. split; [reflexivity|]. split; [split; [apply text_firstn, T|reflexivity]|].
  pose proof (part_of s 0 m) as P. cbn [skipn] in P. rewrite Nat.sub_0_r in P. apply P. lia.
Qed.
Print Assumptions C30_left.

(** RIGHT returns the last [n] characters, or all of them. *)
Theorem C30_right : forall b s n, is_text b s ->
  if (n <? 0)%Z then fn_right b n = Some (Err (FnNegative 1))
  else exists r t, fn_right b n = Some (Ok r) /\ is_text r t /\
         part s (length s - Z.to_nat n) (Nat.min (Z.to_nat n) (length s)) t.
Proof.
  intros b s n [T ->]. unfold fn_right, char_len. rewrite chars_collect by assumption.
  destruct (n <? 0)%Z; [reflexivity|]. rewrite slice_chars by (try assumption; lia). cbn [ret_slice].
  do 2 eexists. split; [reflexivity|]. split; [split; [apply text_firstn, text_skipn, T|reflexivity]|].
  pose proof (part_of s (length s - Z.to_nat n) (length s)) as P.
  replace (length s - Nat.min (length s) (Z.to_nat n)) with (length s - Z.to_nat n) by lia.
  replace (Nat.min (Z.to_nat n) (length s)) with (length s - (length s - Z.to_nat n)) by lia.
  apply P. lia.
Qed.
Print Assumptions C30_right.

(** MID skips [start] characters and returns at most the requested number, or the rest. *)
Theorem C30_mid : forall b s start len, is_text b s ->
  if (start <? 0)%Z then fn_mid b start len = Some (Err (FnNegative 1))
  else match len with
  | Some l =>
      if (l <? 0)%Z then fn_mid b start len = Some (Err (FnNegative 2))
      else exists r t, fn_mid b start len = Some (Ok r) /\ is_text r t /\
             part s (Nat.min (Z.to_nat start) (length s))
                    (Nat.min (Z.to_nat l) (length s - Z.to_nat start)) t
  | None => exists r t, fn_mid b start len = Some (Ok r) /\ is_text r t /\
             part s (Nat.min (Z.to_nat start) (length s)) (length s - Z.to_nat start) t
  end.
Proof.
  intros b s start len [T ->]. unfold fn_mid, char_len. rewrite chars_collect by assumption.
  destruct (start <? 0)%Z; [reflexivity|]. destruct len as [l|].
  - destruct (l <? 0)%Z; [reflexivity|]. rewrite slice_chars by (try assumption; lia). cbn [ret_slice].
    do 2 eexists. split; [reflexivity|]. split; [split; [apply text_firstn, text_skipn, T|reflexivity]|].
    set (a := Nat.min (length s) (Z.to_nat start)).
    set (e := Nat.min (a + Z.to_nat l) (length s)).
    replace (Nat.min (Z.to_nat start) (length s)) with a by lia.
    replace (Nat.min (Z.to_nat l) (length s - Z.to_nat start)) with (e - a) by lia.
    apply part_of. lia.
  - rewrite slice_chars by (try assumption; lia). cbn [ret_slice].
    do 2 eexists. split; [reflexivity|]. split; [split; [apply text_firstn, text_skipn, T|reflexivity]|].
    set (a := Nat.min (length s) (Z.to_nat start)).
    replace (Nat.min (Z.to_nat start) (length s)) with a by lia.
    replace (length s - Z.to_nat start) with (length s - a) by lia. apply part_of. lia.
Qed.
Print Assumptions C30_mid.

(** LEFT and RIGHT rebuild any text split anywhere. *)
Theorem C30_left_right : forall b s n l r, is_text b s -> n <= length s ->
  fn_left b (Z.of_nat n) = Some (Ok l) -> fn_right b (Z.of_nat (length s - n)) = Some (Ok r) ->
  (l ++ r)%list = b.
Proof.
  intros b s n l r B L El Er. pose proof (C30_left b s (Z.of_nat n) B) as HL.
  pose proof (C30_right b s (Z.of_nat (length s - n)) B) as HR.
  destruct (Z.ltb_spec (Z.of_nat n) 0); [lia|].
  destruct (Z.ltb_spec (Z.of_nat (length s - n)) 0); [lia|].
  destruct HL as (l' & tl & HL & (_ & ->) & (p1 & q1 & E1 & L1 & L1')).
  destruct HR as (r' & tr & HR & (_ & ->) & (p2 & q2 & E2 & L2 & L2')).
  assert (l = collect tl) by congruence. assert (r = collect tr) by congruence. subst l r.
  rewrite <- collect_app. destruct B as [_ ->]. f_equal. rewrite Nat2Z.id in *.
  apply length_zero_iff_nil in L1. subst p1. cbn [app] in E1.
  assert (length q2 = 0) by (apply (f_equal (@length N)) in E2; rewrite !app_length in E2; lia).
  apply length_zero_iff_nil in H1. subst q2. rewrite app_nil_r in E2.
  assert (P : tl = p2).
  { rewrite E1 in E2.
    apply (f_equal (firstn (length tl))) in E2. rewrite firstn_app, firstn_all, Nat.sub_diag in E2.
    cbn [firstn] in E2. rewrite app_nil_r in E2. rewrite E2.
    rewrite firstn_app. replace (length tl - length p2) with 0 by (rewrite E1 in *; rewrite app_length in *; lia).
    cbn [firstn]. rewrite app_nil_r. apply firstn_all2. rewrite E1 in *; rewrite app_length in *; lia. }
  rewrite P. symmetry. exact E2.
Qed.
Print Assumptions C30_left_right.

(** LEN counts characters. *)
Theorem C30_len : forall b s, is_text b s ->
  fn_len b = if (Z.of_nat (length s) <=? i32_max)%Z then Ok (Z.of_nat (length s)) else Err FnTooLong.
Proof. intros b s B. unfold fn_len, char_len. rewrite (is_text_chars _ _ B). reflexivity. Qed.
Print Assumptions C30_len.

(** SPACE. *)
Theorem C30_space : forall n,
  if (n <? 0)%Z then fn_space n = Err (FnNegative 0)
  else exists b s, fn_space n = Ok b /\ is_text b s /\ Z.of_nat (length s) = n /\ Forall (eq 32%N) s.
Proof.
  intros n. unfold fn_space. destruct (Z.ltb_spec n 0); [reflexivity|].
  assert (A : Forall (fun c => (c < 128)%N) (repeat 32%N (Z.to_nat n)))
    by (induction (Z.to_nat n); constructor; [lia|assumption]).
  destruct (ascii_collect _ A) as (C & T & _).
  do 2 eexists. split; [reflexivity|]. split; [split; [exact T|symmetry; exact C]|].
  rewrite repeat_length. split; [lia|]. clear. induction (Z.to_nat n); constructor; auto.
Qed.
Print Assumptions C30_space.

(** The help text says that MID's start is one-based: [MID("abc", 1)] should start with "a". *)
Theorem C30_mid_documented_refuted : exists b s start c rest,
  is_text b s /\ nth_error s (Z.to_nat start - 1) = Some c /\
  fn_mid b start None = Some (Ok rest) /\ nth_error (chars rest) 0 <> Some c.
Proof.
  exists (u "abc"), (u "abc"), 1%Z, 97%N, (u "bc"). repeat split.
  - repeat constructor.
  - discriminate.
Qed.
Print Assumptions C30_mid_documented_refuted.

Example C30_case :
  let s := [233; 8364; 128512; 97]%N in
  is_text (collect s) s /\
  fn_left (collect s) 2 = Some (Ok (collect [233; 8364]%N)) /\
  fn_right (collect s) 2 = Some (Ok (collect [128512; 97]%N)) /\
  fn_mid (collect s) 1 (Some 2%Z) = Some (Ok (collect [8364; 128512]%N)).
Proof. split; [|repeat split]. split; [repeat constructor|reflexivity]. Qed.

(** * C31 *)

Theorem C31_instr : forall start b s m n, is_text b s -> is_text m n ->
  match start with
  | None => exists i, fn_instr None b m = Some (Ok i) /\ first_occurrence s n 1 i
  | Some st =>
      if (0 <? st)%Z then exists i, fn_instr (Some st) b m = Some (Ok i) /\ first_occurrence s n st i
      else fn_instr (Some st) b m = Some (Err (FnStartNotPositive 0))
  end.
Proof.
  intros [st|] b s m n B M.
  - destruct (Z.ltb_spec 0 st); [apply instr_ok; assumption|].
    unfold fn_instr. destruct (Z.leb_spec st 0); [reflexivity|lia].
  - change (fn_instr None b m) with (fn_instr (Some 1%Z) b m). apply instr_ok; auto. lia.
Qed.
Print Assumptions C31_instr.

(** The answer is unique, so the above says exactly what INSTR returns. *)
Theorem C31_unique : forall s n start i j, (0 < start)%Z ->
  first_occurrence s n start i -> first_occurrence s n start j -> i = j.
Proof.
  intros s n start i j P [[-> H]|(k & -> & K1 & K2 & K3)] [[-> H']|(k' & -> & K1' & K2' & K3')]; try reflexivity.
  - exfalso. apply (H k'); [lia|assumption].
  - exfalso. apply (H' k); [lia|assumption].
  - destruct (Nat.lt_trichotomy k k') as [L|[->|L]]; [|reflexivity|].
    + exfalso. apply (K3' k); [lia|assumption|assumption].
    + exfalso. apply (K3 k'); [lia|assumption|assumption].
Qed.
Print Assumptions C31_unique.

(** Two-byte characters that share bytes: the match is found at a character position. *)
Example C31_case :
  let s := [233; 232; 8364; 233; 8364]%N in
  fn_instr (Some 2%Z) (collect s) (collect [233; 8364]%N) = Some (Ok 4%Z) /\
  fn_instr None (collect s) (collect [234%N]) = Some (Ok 0%Z).
Proof. repeat split. Qed.

(** * C32 *)

Theorem C32_asc : forall b s, is_text b s ->
  match s with
  | [c] => fn_asc b = Ok (Z.of_N c) /\ fn_chr (Z.of_N c) = Ok b
  | _ => fn_asc b = Err (FnNotOneChar 0 b)
  end.
Proof.
  intros b s B. unfold fn_asc. rewrite (is_text_chars _ _ B). destruct B as [T ->].
  destruct s as [|c [|c' s]]; try reflexivity. split; [reflexivity|].
  unfold fn_chr. destruct (Z.ltb_spec (Z.of_N c) 0); [lia|]. rewrite N2Z.id. inversion T; subst.
  rewrite H2. cbn [collect flat_map]. rewrite app_nil_r. reflexivity.
Qed.
Print Assumptions C32_asc.

(** The valid codes are the Unicode scalar values: below 1114112 and not surrogates. *)
Theorem C32_chr : forall i,
  if ((0 <=? i)%Z && ((i <? 55296)%Z || ((57344 <=? i)%Z && (i <? 1114112)%Z)))%bool
  then exists b, fn_chr i = Ok b /\ is_text b [Z.to_N i] /\ fn_asc b = Ok i
  else if (i <? 0)%Z then fn_chr i = Err (FnCodeNegative 0 i)
  else fn_chr i = Err (FnCodeInvalid 0 (Z.to_N i)).
Proof.
  intros i. unfold fn_chr. destruct (Z.ltb_spec i 0).
  - destruct (Z.leb_spec 0 i); [lia|]. reflexivity.
  - destruct (Z.leb_spec 0 i); [|lia]. cbn [andb].
    destruct ((i <? 55296)%Z || ((57344 <=? i)%Z && (i <? 1114112)%Z))%bool eqn:E.
    + assert (C : is_char (Z.to_N i) = true) by (unfold is_char; lia). rewrite C.
      exists (enc1 (Z.to_N i)). split; [reflexivity|]. split.
      * split; [repeat constructor; exact C|]. cbn. rewrite app_nil_r. reflexivity.
      * unfold fn_asc. rewrite <- (app_nil_r (enc1 _)), chars_enc1 by exact C. cbn [chars].
        rewrite Z2N.id by lia. reflexivity.
    + assert (C : is_char (Z.to_N i) = false) by (unfold is_char; lia). rewrite C. reflexivity.
Qed.
Print Assumptions C32_chr.

Example C32_case : fn_chr 8364 = Ok [226; 130; 172]%N /\ fn_asc [226; 130; 172]%N = Ok 8364%Z.
Proof. split; reflexivity. Qed.

(** * C51 *)

(** VAL reads the longest number at the start of the text after leading white space, never
    fails, and gives 0 exactly when there is none. *)
Theorem C51_val : forall b s, is_text b s ->
  exists blank t, s = (blank ++ t)%list /\ spaces blank /\ no_space_first t /\
    match parse_numeric_prefix b with
    | NpZero => forall q r, collect t = (q ++ r)%list -> ~ number q
    | NpParse p => longest_number (collect t) p
    | NpPanic => False
    end.
Proof.
  intros b s B. destruct (trim_left_spec s) as (a & E & S & F).
  exists a, (trim_left s). split; [exact E|]. split; [exact S|]. split; [exact F|].
  apply numeric_prefix; [apply trim_left_text, B|]. unfold fn_ltrim. rewrite (is_text_chars _ _ B). reflexivity.
Qed.
Print Assumptions C51_val.

Example C51_case :
  parse_numeric_prefix (u " -12.5e+3x") = NpParse (u "-12.5e+3") /\
  parse_numeric_prefix (u "7e+") = NpParse (u "7") /\ parse_numeric_prefix (u "-.e1") = NpZero /\
  number (u "-12.5e+3").
Proof.
  split; [reflexivity|]. split; [reflexivity|]. split; [reflexivity|].
  exists (u "-"), (u "12.5"), (u "e+3"). split; [reflexivity|]. split; [right; right; reflexivity|]. split.
  - right. exists (u "12"), (u "5"). split; [reflexivity|]. repeat split; try (repeat constructor; fail).
    + repeat constructor; discriminate.
    + repeat constructor; discriminate.
    + left. discriminate.
  - right. exists 101%N, (u "+"), (u "3"). repeat split; auto; try discriminate.
    + right. left. reflexivity.
    + repeat constructor; discriminate.
Qed.

(** * C52 *)

Theorem C52_trim : forall b s, is_text b s ->
  (exists a t, is_text (fn_ltrim b) t /\ s = (a ++ t)%list /\ spaces a /\ no_space_first t) /\
  (exists t z, is_text (fn_rtrim b) t /\ s = (t ++ z)%list /\ spaces z /\ no_space_last t) /\
  (exists a t z, is_text (fn_trim b) t /\ s = (a ++ t ++ z)%list /\ spaces a /\ spaces z /\
     no_space_first t /\ no_space_last t).
Proof.
  intros b s B. unfold fn_ltrim, fn_rtrim, fn_trim. rewrite (is_text_chars _ _ B). destruct B as [T _].
  destruct (trim_left_spec s) as (a & E & S & F).
  assert (R : forall x, text x -> text (rev (trim_left (rev x)))).
  { intros x X. apply Forall_rev. apply trim_left_text. apply Forall_rev. exact X. }
  split; [|split].
  - exists a, (trim_left s). split; [split; [apply trim_left_text, T|reflexivity]|auto].
  - destruct (trim_right_spec s) as (z & Ez & Sz & Fz). exists (rev (trim_left (rev s))), z.
    split; [split; [apply R, T|reflexivity]|auto].
  - destruct (trim_right_spec (trim_left s)) as (z & Ez & Sz & Fz).
    exists a, (rev (trim_left (rev (trim_left s)))), z.
    split; [split; [apply R, trim_left_text, T|reflexivity]|].
    rewrite <- Ez. repeat split; auto.
    intros c r H. apply (F c (r ++ z)%list). rewrite Ez, H. reflexivity.
Qed.
Print Assumptions C52_trim.

Example C52_case : fn_trim (u "  a b ") = u "a b" /\ fn_ltrim (collect [8195; 97]%N) = [97%N] /\
  is_text (u "  a b ") (u "  a b ").
Proof. repeat split. repeat constructor. Qed.

(** * C53 *)

(** STR writes the digits of the value, after a space when it is not negative; reading a text as
    an integer gives its value exactly when it is a signed digit string within 32 bits. *)
Theorem C53_integers : forall i s,
  (exists d, format_integer i = (if (i <? 0)%Z then d else 32%N :: d) /\ denotes_integer d i /\
     fn_ltrim (format_integer i) = d /\ (in_i32 i -> parse_integer d = Some i)) /\
  (parse_integer s = Some i <-> denotes_integer s i /\ in_i32 i).
Proof.
  intros i s. split; [|apply parse_integer_spec].
  exists (to_string i). pose proof (to_string_spec i) as D. split; [reflexivity|]. split; [exact D|].
  split; [|intros R; apply parse_integer_spec; auto].
  assert (A : Forall (fun c => (c < 128)%N) (to_string i) /\
              forall c r, to_string i = c :: r -> is_whitespace c = false).
  { destruct D as (sg & d & -> & Sg & Dd & Ne & _). split.
    - apply Forall_app. split.
      + destruct Sg as [->|[-> | ->]]; repeat constructor.
      + eapply Forall_impl; [|exact Dd]. intros; cbn in *; lia.
    - intros c r H.
      assert (C : c = 43%N \/ c = 45%N \/ (48 <= c <= 57)%N).
      { destruct Sg as [->|[-> | ->]]; cbn in H.
        - subst d. inversion Dd; auto.
        - injection H as <- _. auto.
        - injection H as <- _. auto. }
      unfold is_whitespace. lia. }
  destruct A as [A W]. destruct (ascii_collect _ A) as (C & T & _).
  assert (L : trim_left (to_string i) = to_string i).
  { destruct (to_string i) as [|c r]; [reflexivity|]. cbn [trim_left]. rewrite (W c r eq_refl). reflexivity. }
  unfold fn_ltrim, format_integer. destruct (i <? 0)%Z.
  - rewrite <- C at 1. rewrite chars_collect by exact T. rewrite L. exact C.
  - change (32%N :: to_string i) with (enc1 32 ++ to_string i)%list. rewrite chars_enc1 by reflexivity.
    cbn [trim_left]. replace (is_whitespace 32) with true by reflexivity.
    rewrite <- C at 1. rewrite chars_collect by exact T. rewrite L. exact C.
Qed.
Print Assumptions C53_integers.

Example C53_case : format_integer (-2147483648) = u "-2147483648" /\ format_integer 40 = u " 40" /\
  parse_integer (u "2147483648") = None /\ parse_integer (u "+0012") = Some 12%Z.
Proof. repeat split. Qed.
