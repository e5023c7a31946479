(** The string functions do what they should. *)
From Coq Require Import String.
From Verif Require Import Base Bytecode_Model Mem_Model Num_Model Vm_Model Ast_Model Syms_Model Text_Model Text_Proofs Linebuf_Spec Strings_Model Strings_Spec
  Strings_Proofs Strings_Props Call_Spec Cmds_Model Cmds_Spec Cmds_Proofs Lib_Model Lib_Spec Textfns_Model Textfns_Spec.
Local Open Scope string_scope.
Local Open Scope list_scope.
Local Open Scope nat_scope.

(** ** What the specification says is one thing *)

Lemma app_inj_length (a a' b b' : list N) : a ++ b = a' ++ b' -> length a = length a' -> a = a' /\ b = b'.
Proof.
  revert a'. induction a as [|x a IH]; intros [|x' a'] E L; try discriminate L; [split; [reflexivity|exact E]|].
  cbn [app length] in *. injection E as -> E. destruct (IH a' E) as [-> ->]; [lia|]. split; reflexivity.
Qed.
Lemma part_unique s k n a b : part s k n a -> part s k n b -> a = b.
Proof.
  intros (p & q & E & L & M) (p' & q' & E' & L' & M'). rewrite E in E'.
  apply app_inj_length in E'; [|congruence]. destruct E' as [_ E']. apply app_inj_length in E'; [|congruence]. exact (proj1 E').
Qed.

Lemma trims_start_is s t : trims_start s t -> t = trim_left s.
Proof.
  intros (a & -> & SP & F). induction SP as [|c a C SP IH]; cbn [app trim_left].
  - destruct t as [|c t]; [reflexivity|]. cbn [trim_left]. rewrite (F c t eq_refl). reflexivity.
  - rewrite C. exact IH.
Qed.
Lemma trims_end_is s t : trims_end s t -> t = rev (trim_left (rev s)).
Proof.
  intros (z & -> & SP & F). rewrite <- (trims_start_is (rev (t ++ z)) (rev t)); [symmetry; apply rev_involutive|].
  exists (rev z). split; [apply rev_app_distr|]. split; [apply Forall_rev, SP|].
  intros c r E. apply (F c (rev r)). rewrite <- (rev_involutive t), E. reflexivity.
Qed.

Lemma longest_unique t p q : longest_number t p -> longest_number t q -> p = q.
Proof.
  intros (NP & (r & E) & MP) (NQ & (r' & E') & MQ). pose proof (MP _ _ E' NQ). pose proof (MQ _ _ E NP).
  rewrite E in E'. apply app_inj_length in E'; [exact (proj1 E')|lia].
Qed.

Lemma spaces_unique n (a b : ustr) : Z.of_nat (length a) = n -> Forall (eq 32%N) a -> Z.of_nat (length b) = n -> Forall (eq 32%N) b -> a = b.
Proof.
  intros LA FA LB FB. assert (L : length a = length b) by lia. clear LA LB. revert b L FB.
  induction FA as [|x a X FA IH]; intros [|y b] L FB; try discriminate L; [reflexivity|].
  inversion FB; subst. f_equal. apply IH; [|assumption]. cbn [length] in L. lia.
Qed.

(** ** The functions *)

Lemma text_is s : text s -> Linebuf_Spec.is_text (collect s) s.
Proof. intros T. split; [exact T|reflexivity]. Qed.
Lemma ltb_no n : (0 <= n)%Z -> (n <? 0)%Z = false.
Proof. intros H. apply Z.ltb_ge. exact H. Qed.
Lemma ltb_yes n : (n < 0)%Z -> (n <? 0)%Z = true.
Proof. intros H. apply Z.ltb_lt. exact H. Qed.

Lemma left_is s n t : text s -> (0 <= n)%Z -> part s 0 (upto n s) t -> exists b, fn_left (collect s) n = Some (Ok b) /\ chars b = t.
Proof.
  intros T P0 PA. pose proof (C30_left _ _ n (text_is s T)) as H. rewrite (ltb_no n P0) in H. destruct H as (b & t' & E & B & PB).
  exists b. split; [exact E|]. rewrite (is_text_chars _ _ B). exact (part_unique _ _ _ _ _ PB PA).
Qed.
Lemma right_is s n t : text s -> (0 <= n)%Z -> part s (length s - Z.to_nat n) (upto n s) t -> exists b, fn_right (collect s) n = Some (Ok b) /\ chars b = t.
Proof.
  intros T P0 PA. pose proof (C30_right _ _ n (text_is s T)) as H. rewrite (ltb_no n P0) in H. destruct H as (b & t' & E & B & PB).
  exists b. split; [exact E|]. rewrite (is_text_chars _ _ B). exact (part_unique _ _ _ _ _ PB PA).
Qed.
Lemma mid_is s n t k : text s -> (0 <= n)%Z -> part s (upto n s) k t -> upto n s + k = length s ->
  exists b, fn_mid (collect s) n None = Some (Ok b) /\ chars b = t.
Proof.
  intros T P0 PA K. pose proof (C30_mid _ _ n None (text_is s T)) as H. rewrite (ltb_no n P0) in H. destruct H as (b & t' & E & B & PB).
  exists b. split; [exact E|]. rewrite (is_text_chars _ _ B). replace (length s - Z.to_nat n) with k in PB by (unfold upto in K; lia).
  exact (part_unique _ _ _ _ _ PB PA).
Qed.
Lemma mid_length_is s n l t : text s -> (0 <= n)%Z -> (0 <= l)%Z -> part s (upto n s) (Nat.min (Z.to_nat l) (length s - upto n s)) t ->
  exists b, fn_mid (collect s) n (Some l) = Some (Ok b) /\ chars b = t.
Proof.
  intros T P0 P1 PA. pose proof (C30_mid _ _ n (Some l) (text_is s T)) as H. rewrite (ltb_no n P0), (ltb_no l P1) in H. destruct H as (b & t' & E & B & PB).
  exists b. split; [exact E|]. rewrite (is_text_chars _ _ B). replace (length s - upto n s) with (length s - Z.to_nat n) in PA by (unfold upto; lia).
  exact (part_unique _ _ _ _ _ PB PA).
Qed.
Lemma occurrence_bound s t st i : (Z.of_nat (length s) < i32_max)%Z -> first_occurrence s t st i -> in_i32 i.
Proof.
  intros L H. unfold in_i32, i32_min. destruct H as [[-> _]|(k & -> & _ & (p & q & E & K) & _)]; [unfold i32_max; lia|].
  assert (LE : k <= length s) by (rewrite E, app_length; lia). lia.
Qed.
Lemma instr_is o s t i : text s -> text t ->
  match o with None => first_occurrence s t 1 i | Some z => (0 < z)%Z /\ first_occurrence s t z i end ->
  fn_instr o (collect s) (collect t) = Some (Ok i).
Proof.
  intros TS TT H. pose proof (C31_instr o _ _ _ _ (text_is s TS) (text_is t TT)) as C. destruct o as [z|].
  - destruct H as [Z0 H]. rewrite (proj2 (Z.ltb_lt 0 z) Z0) in C. destruct C as (j & E & F). rewrite E, (C31_unique _ _ _ _ _ Z0 F H). reflexivity.
  - destruct C as (j & E & F). rewrite E, (C31_unique _ _ 1 _ _ eq_refl F H). reflexivity.
Qed.
Lemma chr_is i : character i -> exists b, fn_chr i = Ok b /\ chars b = [Z.to_N i].
Proof.
  intros C. pose proof (C32_chr i) as H. unfold character in C.
  assert (E : ((0 <=? i)%Z && ((i <? 55296)%Z || ((57344 <=? i)%Z && (i <? 1114112)%Z)))%bool = true) by lia. rewrite E in H.
  destruct H as (b & F & B & _). exists b. split; [exact F|apply is_text_chars, B].
Qed.
Lemma chr_not i : ~ character i -> fn_chr i = if (i <? 0)%Z then Err (FnCodeNegative 0 i) else Err (FnCodeInvalid 0 (Z.to_N i)).
Proof.
  intros C. pose proof (C32_chr i) as H. unfold character in C.
  assert (E : ((0 <=? i)%Z && ((i <? 55296)%Z || ((57344 <=? i)%Z && (i <? 1114112)%Z)))%bool = false) by lia. rewrite E in H.
  destruct (i <? 0)%Z; exact H.
Qed.
Lemma space_is n t : (0 <= n)%Z -> Z.of_nat (length t) = n -> Forall (eq 32%N) t -> exists b, fn_space n = Ok b /\ chars b = t.
Proof.
  intros P0 L F. pose proof (C30_space n) as H. rewrite (ltb_no n P0) in H. destruct H as (b & s & E & B & LS & FS).
  exists b. split; [exact E|]. rewrite (is_text_chars _ _ B). exact (spaces_unique n s t LS FS L F).
Qed.
Lemma text_trimmed s : text s -> text (trim_left s).
Proof. intros T. induction T as [|c s C T IH]; cbn [trim_left]; [constructor|]. destruct (is_whitespace c); [exact IH|constructor; assumption]. Qed.
Lemma ltrim_is s t : text s -> trims_start s t -> chars (fn_ltrim (collect s)) = t.
Proof. intros T H. unfold fn_ltrim. rewrite (chars_collect s T), (trims_start_is _ _ H). apply chars_collect, text_trimmed, T. Qed.
Lemma text_end s : text s -> text (rev (trim_left (rev s))).
Proof. intros T. apply Forall_rev, text_trimmed, Forall_rev, T. Qed.
Lemma rtrim_is s t : text s -> trims_end s t -> chars (fn_rtrim (collect s)) = t.
Proof. intros T H. unfold fn_rtrim. rewrite (chars_collect s T), (trims_end_is _ _ H). apply chars_collect, text_end, T. Qed.
Lemma trim_is s m t : text s -> trims_start s m -> trims_end m t -> chars (fn_trim (collect s)) = t.
Proof.
  intros T H K. unfold fn_trim. rewrite (chars_collect s T), (trims_end_is _ _ K), (trims_start_is _ _ H). apply chars_collect, text_end, text_trimmed, T.
Qed.
Lemma val_is s t p : text s -> trims_start s t -> longest_number (collect t) p -> parse_numeric_prefix (collect s) = NpParse p.
Proof.
  intros T H L. destruct (C51_val _ _ (text_is s T)) as (a & t' & E & SP & F & M).
  assert (E' : t' = t) by (rewrite (trims_start_is _ _ H); apply trims_start_is; exists a; repeat split; assumption). subst t'.
  destruct (parse_numeric_prefix (collect s)) as [|q|]; [|rewrite (longest_unique _ _ _ M L); reflexivity|destruct M].
  destruct L as (NP & (r & E0) & _). destruct (M _ _ E0 NP).
Qed.
Lemma val_zero s t : text s -> trims_start s t -> (forall q r, collect t = q ++ r -> ~ number q) -> parse_numeric_prefix (collect s) = NpZero.
Proof.
  intros T H L. destruct (C51_val _ _ (text_is s T)) as (a & t' & E & SP & F & M).
  assert (E' : t' = t) by (rewrite (trims_start_is _ _ H); apply trims_start_is; exists a; repeat split; assumption). subst t'.
  destruct (parse_numeric_prefix (collect s)) as [|q|]; [reflexivity| |destruct M].
  destruct M as (NP & (r & E0) & _). destruct (L _ _ E0 NP).
Qed.

Section Provides.
Variables (lowercase uppercase : ustr -> ustr) (show_double : N -> ustr) (parse_f64 : ustr -> N).
Context {W : Type}.

Lemma answer_ok {A} (value : A -> cdatum) params a (pos : list linecol) (w : W) :
  exists r', answer pos value params (Some (Ok a)) w = Some (w, r') /\ said r' = Ok (Some (value a)).
Proof. eexists. split; reflexivity. Qed.
Lemma answer_text params b t (pos : list linecol) (w : W) : chars b = t ->
  exists r', answer pos text_value params (Some (Ok b)) w = Some (w, r') /\ said r' = Ok (Some (CText t)).
Proof. intros <-. eexists. split; reflexivity. Qed.
Lemma answer_error {A} (value : A -> cdatum) params e k msg (pos : list linecol) (w : W) : fn_failure params e = (Some k, msg) -> k < length pos ->
  exists r', answer pos value params (Some (Err e)) w = Some (w, r') /\ said r' = Err msg.
Proof.
  intros E L. unfold answer, syntax_error. rewrite E. destruct (nth_error pos k) as [q|] eqn:Q; [|apply nth_error_None in Q; lia].
  eexists. split; reflexivity.
Qed.
Lemma declares_text md d v : md_return md = Some TText -> @Ok ustr _ (Some (CText d)) = Ok v -> declares md v.
Proof. intros R E. injection E as <-. unfold declares. rewrite R. split; [reflexivity|intros z Z0; discriminate Z0]. Qed.
Lemma declares_number md d v : md_return md = Some TDouble -> @Ok ustr _ (Some (CDouble d)) = Ok v -> declares md v.
Proof. intros R E. injection E as <-. unfold declares. rewrite R. split; [reflexivity|intros z Z0; discriminate Z0]. Qed.
Lemma declares_int md d v : md_return md = Some TInteger -> in_i32 d -> @Ok ustr _ (Some (CInt d)) = Ok v -> declares md v.
Proof. intros R L E. injection E as <-. unfold declares. rewrite R. split; [reflexivity|intros z Z0; injection Z0 as <-; exact L]. Qed.

Ltac in_values := let k := fresh in let t := fresh in let I0 := fresh in
  intros k t I0; repeat match goal with H : In _ (_ :: _) |- _ => destruct H as [H|H]; [discriminate H|] | H : In _ [] |- _ => destruct H end.
Ltac start := split; [in_values|]; eexists; (split; [reflexivity|]).
Ltac a_text := split; [intros v0 E0; eapply declares_text; [reflexivity|exact E0]|].
Ltac an_int t := split; [intros v0 E0; (eapply declares_int; [reflexivity| |exact E0]); t|].
Ltac a_number := split; [intros v0 E0; eapply declares_number; [reflexivity|exact E0]|].
Ltac an_error := split; [intros v0 E0; discriminate E0|].
Ltac running := intros arg text_of pos GF LE; cbn [length] in LE; cbn [pv_exec stringy];
  try (pose proof (GF 0%nat _ eq_refl) as G0; cbn [given_at Nat.add] in G0);
  try (pose proof (GF 1%nat _ eq_refl) as G1; cbn [given_at Nat.add] in G1);
  try (pose proof (GF 2%nat _ eq_refl) as G2; cbn [given_at Nat.add] in G2).

Lemma strings_provides : provides (strings_provided lowercase uppercase show_double parse_f64) (@strings_does lowercase uppercase show_double parse_f64 W).
Proof.
  intros k gs w r w' (-> & v & H & ->).
  destruct H as [c T|s T L|i C|i d L D|i d L C D|s t i TS TT L F|z s t i TS TT L Z0 F|z s t TS TT L|s|s|s n t T P0 PA|s n T L|s n t T P0 PA|s n T L
    |s n t k T P0 PA K|s n l t T P0 P1 PA|s n T L|s n l T L|s n l T P0 L|s T L|s T L|s t T H|s t T H|s m t T H K|n t P0 L F|n L|d t SH|s t p T H L|s t T H L]; start.
  - an_int ltac:(unfold in_i32, i32_min, i32_max; inversion T as [|? ? C _]; subst; apply is_char_bound in C; lia).
    running. unfold asc_exec, with_text. rewrite G0. destruct (C32_asc _ _ (text_is _ T)) as [E _]. rewrite E. apply answer_ok.
  - an_error. running. unfold asc_exec, with_text. rewrite G0. pose proof (C32_asc _ _ (text_is _ T)) as E.
    assert (E1 : fn_asc (collect s) = Err (FnNotOneChar 0 (collect s))) by (destruct s as [|c [|c' s]]; [exact E|cbn [length] in L; lia|exact E]).
    rewrite E1. apply (answer_error _ _ _ 0); [|lia]. cbn [fn_failure]. rewrite (chars_collect s T). reflexivity.
  - a_text. running. unfold chr_exec. rewrite G0. destruct (chr_is i C) as (b & -> & B). apply answer_text, B.
  - an_error. running. unfold chr_exec. rewrite G0, chr_not by (unfold character; lia). rewrite (ltb_yes i L).
    apply (answer_error _ _ _ 0); [|lia]. cbn [fn_failure]. destruct (to_string_numeral i) as (d' & D' & ->). rewrite (ltb_yes i L), (numeral_unique _ _ _ D D').
    reflexivity.
  - an_error. running. unfold chr_exec. rewrite G0, chr_not by exact C. rewrite (ltb_no i L).
    apply (answer_error _ _ _ 0); [|lia]. cbn [fn_failure]. rewrite Z2N.id by exact L. destruct (to_string_numeral i) as (d' & D' & ->).
    rewrite (ltb_no i L), (numeral_unique _ _ _ D D'). reflexivity.
  - an_int ltac:(exact (occurrence_bound _ _ _ _ L F)). running. unfold instr_exec, with_text. rewrite LE, G0, G1. cbn [Nat.eqb].
    rewrite (instr_is None s t i TS TT F). apply answer_ok.
  - an_int ltac:(exact (occurrence_bound _ _ _ _ L F)). running. unfold instr_exec, with_text. rewrite LE, G0, G1, G2. cbn [Nat.eqb].
    rewrite (instr_is (Some z) s t i TS TT (conj Z0 F)). apply answer_ok.
  - an_error. running. unfold instr_exec, with_text. rewrite LE, G0, G1, G2. cbn [Nat.eqb].
    pose proof (C31_instr (Some z) _ _ _ _ (text_is s TS) (text_is t TT)) as E. cbv iota beta in E. rewrite (proj2 (Z.ltb_ge 0 z) L) in E. rewrite E.
    apply (answer_error _ _ _ 0); [reflexivity|lia].
  - a_text. running. unfold lcase_exec. rewrite G0. eexists; split; reflexivity.
  - a_text. running. unfold ucase_exec. rewrite G0. eexists; split; reflexivity.
  - a_text. running. unfold left_exec, with_text. rewrite G0, G1. destruct (left_is s n t T P0 PA) as (b & -> & B). apply answer_text, B.
  - an_error. running. unfold left_exec, with_text. rewrite G0, G1. pose proof (C30_left _ _ n (text_is s T)) as E. rewrite (ltb_yes n L) in E. rewrite E.
    apply (answer_error _ _ _ 1); [reflexivity|lia].
  - a_text. running. unfold right_exec, with_text. rewrite G0, G1. destruct (right_is s n t T P0 PA) as (b & -> & B). apply answer_text, B.
  - an_error. running. unfold right_exec, with_text. rewrite G0, G1. pose proof (C30_right _ _ n (text_is s T)) as E. rewrite (ltb_yes n L) in E. rewrite E.
    apply (answer_error _ _ _ 1); [reflexivity|lia].
  - a_text. running. unfold mid_exec, with_text. rewrite LE, G0, G1. cbn [Nat.eqb]. destruct (mid_is s n t k T P0 PA K) as (b & -> & B). apply answer_text, B.
  - a_text. running. unfold mid_exec, with_text. rewrite LE, G0, G1, G2. cbn [Nat.eqb]. destruct (mid_length_is s n l t T P0 P1 PA) as (b & -> & B). apply answer_text, B.
  - an_error. running. unfold mid_exec, with_text. rewrite LE, G0, G1. cbn [Nat.eqb]. pose proof (C30_mid _ _ n None (text_is s T)) as E.
    rewrite (ltb_yes n L) in E. rewrite E. apply (answer_error _ _ _ 1); [reflexivity|lia].
  - an_error. running. unfold mid_exec, with_text. rewrite LE, G0, G1, G2. cbn [Nat.eqb]. pose proof (C30_mid _ _ n (Some l) (text_is s T)) as E.
    rewrite (ltb_yes n L) in E. rewrite E. apply (answer_error _ _ _ 1); [reflexivity|lia].
  - an_error. running. unfold mid_exec, with_text. rewrite LE, G0, G1, G2. cbn [Nat.eqb]. pose proof (C30_mid _ _ n (Some l) (text_is s T)) as E.
    rewrite (ltb_no n P0), (ltb_yes l L) in E. rewrite E. apply (answer_error _ _ _ 2); [reflexivity|lia].
  - an_int ltac:(unfold in_i32, i32_min; lia). running. unfold len_exec, with_text. rewrite G0, (C30_len _ _ (text_is s T)), (proj2 (Z.leb_le _ _) L). apply answer_ok.
  - an_error. running. unfold len_exec, with_text. rewrite G0, (C30_len _ _ (text_is s T)), (proj2 (Z.leb_gt _ _) L). eexists; split; reflexivity.
  - a_text. running. unfold ltrim_exec, with_text. rewrite G0. apply answer_text, ltrim_is; assumption.
  - a_text. running. unfold rtrim_exec, with_text. rewrite G0. apply answer_text, rtrim_is; assumption.
  - a_text. running. unfold trim_exec, with_text. rewrite G0. apply answer_text, (trim_is s m t); assumption.
  - a_text. running. unfold space_exec. rewrite G0. destruct (space_is n t P0 L F) as (b & -> & B). apply answer_text, B.
  - an_error. running. unfold space_exec. rewrite G0. pose proof (C30_space n) as E. rewrite (ltb_yes n L) in E. rewrite E.
    apply (answer_error _ _ _ 0); [reflexivity|lia].
  - a_text. intros arg text_of pos GF LE. cbn [pv_exec stringy]. unfold str_exec.
    pose proof (GF 0%nat _ eq_refl) as G0. pose proof (GF 1%nat _ eq_refl) as G1. cbn [Nat.add] in G0, G1. cbn [given_at] in G0.
    rewrite (vararg_at arg _ _ G0), (print_value_shows arg text_of show_double _ _ _ G1 SH). eexists; split; reflexivity.
  - a_number. running. unfold val_exec, with_text. rewrite G0, (val_is s t p T H L). eexists; split; reflexivity.
  - a_number. running. unfold val_exec, with_text. rewrite G0, (val_zero s t T H L). eexists; split; reflexivity.
Qed.
End Provides.

(** ** What follows from a value *)

Section Inversion.
Variables (lowercase uppercase : ustr -> ustr) (show_double : N -> ustr) (parse_f64 : ustr -> N).
Notation gives := (gives lowercase uppercase show_double parse_f64).
Ltac none := match goal with H : _ = u _ |- _ => discriminate H | H : _ = [_] |- _ => discriminate H | H : _ = [_; _] |- _ => discriminate H | H : _ = Ok _ |- _ => discriminate H end.

Lemma left_gen k gs v s n a : gives k gs v -> k = u "LEFT" -> gs = [GValue (CText s); GValue (CInt n)] -> v = Ok (CText a) -> part s 0 (upto n s) a.
Proof. intros H EK EG EV. destruct H; try none. injection EG as -> ->. injection EV as ->. assumption. Qed.
Lemma left_inv s n a : gives (u "LEFT") [GValue (CText s); GValue (CInt n)] (Ok (CText a)) -> part s 0 (upto n s) a.
Proof. intros H. exact (left_gen _ _ _ s n a H eq_refl eq_refl eq_refl). Qed.
Lemma mid_gen k gs v s n a : gives k gs v -> k = u "MID" -> gs = [GValue (CText s); GValue (CInt n)] -> v = Ok (CText a) ->
  exists j, part s (upto n s) j a /\ upto n s + j = length s.
Proof. intros H EK EG EV. destruct H; try none. injection EG as -> ->. injection EV as ->. eexists. split; eassumption. Qed.
Lemma mid_inv s n a : gives (u "MID") [GValue (CText s); GValue (CInt n)] (Ok (CText a)) -> exists j, part s (upto n s) j a /\ upto n s + j = length s.
Proof. intros H. exact (mid_gen _ _ _ s n a H eq_refl eq_refl eq_refl). Qed.
Lemma chr_gen k gs v i : gives k gs v -> k = u "CHR" -> gs = [GValue (CInt i)] -> (character i /\ v = Ok (CText [Z.to_N i])) \/ (~ character i /\ exists e, v = Err e).
Proof.
  intros H EK EG. destruct H; try none; injection EG as ->.
  - left. split; [assumption|reflexivity].
  - right. split; [unfold character; lia|eexists; reflexivity].
  - right. split; [assumption|eexists; reflexivity].
Qed.
Lemma chr_inv i t : gives (u "CHR") [GValue (CInt i)] (Ok (CText t)) -> character i /\ t = [Z.to_N i].
Proof. intros H. destruct (chr_gen _ _ _ i H eq_refl eq_refl) as [[C E]|[_ [e E]]]; [|discriminate E]. injection E as ->. split; [exact C|reflexivity]. Qed.
Lemma chr_value i v : gives (u "CHR") [GValue (CInt i)] v -> character i -> v = Ok (CText [Z.to_N i]).
Proof. intros H C. destruct (chr_gen _ _ _ i H eq_refl eq_refl) as [[_ E]|[NC _]]; [exact E|contradiction]. Qed.
Lemma asc_gen k gs v s d : gives k gs v -> k = u "ASC" -> gs = [GValue (CText s)] -> v = Ok d -> exists c, s = [c] /\ text s /\ d = CInt (Z.of_N c).
Proof. intros H EK EG EV. destruct H; try none. injection EG as <-. injection EV as <-. eexists. repeat split; [eassumption]. Qed.
Lemma asc_inv s d : gives (u "ASC") [GValue (CText s)] (Ok d) -> exists c, s = [c] /\ d = CInt (Z.of_N c).
Proof. intros H. destruct (asc_gen _ _ _ s d H eq_refl eq_refl eq_refl) as (c & E & _ & D). exists c. split; assumption. Qed.
Lemma asc_inv' s i : gives (u "ASC") [GValue (CText s)] (Ok (CInt i)) -> exists c, s = [c] /\ text s /\ i = Z.of_N c.
Proof. intros H. destruct (asc_gen _ _ _ s _ H eq_refl eq_refl eq_refl) as (c & E & T & D). injection D as ->. exists c. repeat split; assumption. Qed.

Lemma str_gen k gs v i t : gives k gs v -> k = u "STR" -> gs = [GTag (VImmediate SepEnd TInteger); GValue (CInt i)] -> v = Ok (CText t) ->
  shows show_double (CInt i) t.
Proof. intros H EK EG EV. destruct H; try none. injection EG as _ ->. injection EV as ->. assumption. Qed.
Lemma val_gen k gs v s x : gives k gs v -> k = u "VAL" -> gs = [GValue (CText s)] -> v = Ok (CDouble x) ->
  text s /\ exists t, trims_start s t /\ ((exists p, longest_number (collect t) p /\ x = parse_f64 p) \/ (forall q r, collect t = q ++ r -> ~ number q)).
Proof.
  intros H EK EG EV. destruct H; try none; injection EG as ->; injection EV as <-; (split; [assumption|]); eexists; (split; [eassumption|]).
  - left. eexists. split; [eassumption|reflexivity].
  - right. assumption.
Qed.
Lemma ascii_same d : digits d -> collect d = d.
Proof. intros D. assert (A : Forall (fun c => (c < 128)%N) d) by (eapply Forall_impl; [|exact D]; cbv beta; lia). destruct (ascii_collect _ A) as (C & _ & _). exact C. Qed.
Lemma digit_not_space c : (48 <= c <= 57)%N -> is_whitespace c = false.
Proof. intros H. unfold is_whitespace. lia. Qed.
Lemma val_str i t x : gives (u "STR") [GTag (VImmediate SepEnd TInteger); GValue (CInt i)] (Ok (CText t)) -> gives (u "VAL") [GValue (CText t)] (Ok (CDouble x)) ->
  exists d, numeral i d /\ x = parse_f64 ((if (i <? 0)%Z then [45%N] else []) ++ d).
Proof.
  intros HS HV. pose proof (str_gen _ _ _ i t HS eq_refl eq_refl eq_refl) as SH. destruct (val_gen _ _ _ t x HV eq_refl eq_refl eq_refl) as (T & y & TR & V).
  assert (G : exists sg d, numeral i d /\ sg = (if (i <? 0)%Z then [45%N] else []) /\ trims_start t (sg ++ d) /\ collect (sg ++ d) = sg ++ d).
  { inversion SH as [| |z d L D|z d L D| | |]; subst.
    - exists [45%N], d. rewrite (ltb_yes i L). split; [exact D|]. split; [reflexivity|]. split.
      + exists []. split; [reflexivity|]. split; [constructor|]. intros c r E. injection E as <- _. reflexivity.
      + unfold collect. cbn [app flat_map]. change (flat_map enc1 d) with (collect d). rewrite (ascii_same d (proj1 D)). reflexivity.
    - exists [], d. rewrite (ltb_no i L). split; [exact D|]. split; [reflexivity|]. split; [|exact (ascii_same d (proj1 D))].
      exists [space]. split; [reflexivity|]. split; [constructor; [reflexivity|constructor]|]. intros c r E. cbn [app] in E.
      apply digit_not_space. pose proof (proj1 D) as DD. rewrite E in DD. inversion DD; assumption. }
  destruct G as (sg & d & D & SG & TR' & CO). exists d. split; [exact D|]. rewrite <- SG.
  assert (Y : y = sg ++ d) by (rewrite (trims_start_is _ _ TR), (trims_start_is _ _ TR'); reflexivity). subst y. rewrite CO in V.
  assert (NU : number (sg ++ d)).
  { exists sg, d, []. split; [rewrite app_nil_r; reflexivity|]. split; [|split; [left; split; [exact (proj1 D)|exact (proj1 (proj2 D))]|left; reflexivity]].
    unfold sign. destruct (i <? 0)%Z; subst sg; [right; right; reflexivity|left; reflexivity]. }
  destruct V as [(p & L & ->)|V]; [|destruct (V (sg ++ d) []); [rewrite app_nil_r; reflexivity|exact NU]].
  f_equal. apply (longest_unique (sg ++ d)); [exact L|]. split; [exact NU|]. split; [exists []; symmetry; apply app_nil_r|].
  intros q r E _. rewrite E, app_length. lia.
Qed.

Lemma trim_gen k gs v s t : gives k gs v -> k = u "TRIM" -> gs = [GValue (CText s)] -> v = Ok (CText t) -> text s /\ exists m, trims_start s m /\ trims_end m t.
Proof. intros H EK EG EV. destruct H; try none. injection EG as ->. injection EV as ->. split; [assumption|]. eexists. split; eassumption. Qed.
Lemma trims_gen k gs v s : gives k gs v -> In k [u "TRIM"; u "LTRIM"; u "RTRIM"] -> gs = [GValue (CText s)] -> no_space_first s -> no_space_last s -> v = Ok (CText s).
Proof.
  intros H IK EG NF NL.
  assert (A : forall x t, trims_start x t -> no_space_first x -> t = x).
  { intros x t TR F. rewrite (trims_start_is _ _ TR). symmetry. apply trims_start_is. exists []. split; [reflexivity|]. split; [constructor|exact F]. }
  assert (B : forall x t, trims_end x t -> no_space_last x -> t = x).
  { intros x t TR F. rewrite (trims_end_is _ _ TR). symmetry. apply trims_end_is. exists []. split; [symmetry; apply app_nil_r|]. split; [constructor|exact F]. }
  destruct H; try none; try (exfalso; repeat (destruct IK as [IK|IK]; [discriminate IK|]); exact IK); injection EG as ->.
  - f_equal. f_equal. apply A; assumption.
  - f_equal. f_equal. apply B; assumption.
  - f_equal. f_equal. match goal with TR : trims_start s ?m |- _ => pose proof (A s m TR NF) as E; subst m end. apply B; assumption.
Qed.
Lemma trim_again s t v : gives (u "TRIM") [GValue (CText s)] (Ok (CText t)) ->
  forall k, In k [u "TRIM"; u "LTRIM"; u "RTRIM"] -> gives k [GValue (CText t)] v -> v = Ok (CText t).
Proof.
  intros H k IK HV. destruct (trim_gen _ _ _ s t H eq_refl eq_refl eq_refl) as (_ & m & (a & _ & _ & NF) & (z & E & _ & NL)).
  apply (trims_gen _ _ _ t HV IK eq_refl); [|exact NL]. intros c r ->. apply (NF c (r ++ z)). rewrite E. reflexivity.
Qed.
End Inversion.
