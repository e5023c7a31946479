(** The string functions in programs: C76. *)
From Coq Require Import String.
From Verif Require Import Base Bytecode_Model Mem_Model Num_Model Vm_Model Vm_Spec Ids_Model Ast_Model Syms_Model Text_Model Text_Proofs Linebuf_Spec
  Strings_Model Strings_Spec Strings_Proofs Strings_Props Codegen_Model Exprs_Model Top_Model Incr_Spec Args_Spec Eval_Spec Eval_Props Call_Spec Host_Model Host_Case
  Exec_Spec Program_Proofs User_Spec User_Proofs Exec_Props User_Props Host_Props Cmds_Model Cmds_Spec Cmds_Proofs Cmds_Props
  Input_Model Input_Props Read_Props Lib_Model Lib_Spec Lib_Proofs Lib_Run Gpio_Proofs Textfns_Model Textfns_Spec Textfns_Proofs.
Local Open Scope string_scope.
Local Open Scope list_scope.
Local Open Scope nat_scope.

Definition string_names : list ustr :=
  [u "ASC"; u "CHR"; u "INSTR"; u "LCASE"; u "LEFT"; u "LEN"; u "LTRIM"; u "MID"; u "RIGHT"; u "RTRIM"; u "SPACE"; u "STR"; u "TRIM"; u "UCASE"; u "VAL"].

(** They do what they should, added to any host that does. *)
Theorem C76_strings_obeys : forall lowercase uppercase show_double parse_f64 (W : Type) img ups shared other others mds,
  host_obeys other img ups others mds shared ->
  host_obeys (lib_host (strings_provided lowercase uppercase show_double parse_f64) other ups) img ups
    (value_calls (strings_does lowercase uppercase show_double parse_f64 (W := W)) string_names others)
    (lib_upcalls (strings_provided lowercase uppercase show_double parse_f64 (W := W)) ++ mds) shared.
Proof. intros * OB. apply (lib_obeys img (strings_provided lowercase uppercase show_double parse_f64)); [exact OB|apply strings_provides]. Qed.
Print Assumptions C76_strings_obeys.

(** Whatever they are given, they have a value or an error. *)
Theorem C76_every_call : forall lowercase uppercase show_double parse_f64 s t n l d, text s -> text t ->
  (forall k, In k [u "ASC"; u "LCASE"; u "LEN"; u "LTRIM"; u "RTRIM"; u "TRIM"; u "UCASE"; u "VAL"] ->
     exists v, gives lowercase uppercase show_double parse_f64 k [GValue (CText s)] v) /\
  (forall k, In k [u "CHR"; u "SPACE"] -> exists v, gives lowercase uppercase show_double parse_f64 k [GValue (CInt n)] v) /\
  (forall k, In k [u "LEFT"; u "RIGHT"; u "MID"] -> exists v, gives lowercase uppercase show_double parse_f64 k [GValue (CText s); GValue (CInt n)] v) /\
  (exists v, gives lowercase uppercase show_double parse_f64 (u "MID") [GValue (CText s); GValue (CInt n); GValue (CInt l)] v) /\
  (exists v, gives lowercase uppercase show_double parse_f64 (u "STR") [GTag (VImmediate SepEnd (cdatum_etype d)); GValue d] v) /\
  ((Z.of_nat (length s) < i32_max)%Z ->
    (exists v, gives lowercase uppercase show_double parse_f64 (u "INSTR") [GValue (CText s); GValue (CText t)] v) /\
    (exists v, gives lowercase uppercase show_double parse_f64 (u "INSTR") [GValue (CInt n); GValue (CText s); GValue (CText t)] v)).
Proof.
  intros * TS TT.
  assert (ST : trims_start s (trim_left s)) by (destruct (trim_left_spec s) as (a & E & A & F); exists a; repeat split; assumption).
  assert (EN : forall x, trims_end x (rev (trim_left (rev x)))).
  { intros x. destruct (trim_left_spec (rev x)) as (a & E & A & F). exists (rev a). split; [rewrite <- rev_app_distr, <- E; symmetry; apply rev_involutive|].
    split; [apply Forall_rev, A|]. intros c r E0. apply (F c (rev r)). rewrite <- (rev_involutive (trim_left (rev x))), E0, rev_app_distr. reflexivity. }
  repeat split.
  - intros k I0. repeat (destruct I0 as [<-|I0]; [|]); [..|destruct I0].
    + destruct s as [|c [|c' s]]; eexists; [apply Gives_asc_not; [exact TS|discriminate]|apply Gives_asc, TS|apply Gives_asc_not; [exact TS|discriminate]].
    + eexists. apply Gives_lcase.
    + destruct (Z.le_gt_cases (Z.of_nat (length s)) i32_max); eexists; [apply Gives_len|apply Gives_len_not]; assumption.
    + eexists. apply Gives_ltrim; [exact TS|exact ST].
    + eexists. apply Gives_rtrim; [exact TS|apply EN].
    + eexists. eapply Gives_trim; [exact TS|exact ST|apply EN].
    + eexists. apply Gives_ucase.
    + destruct (C51_val _ _ (text_is s TS)) as (a & t' & E & A & F & M).
      assert (ST' : trims_start s t') by (exists a; repeat split; assumption).
      destruct (parse_numeric_prefix (collect s)) as [|p|]; [| |destruct M]; eexists; [exact (Gives_val_zero _ _ _ _ s t' TS ST' M)|exact (Gives_val _ _ _ _ s t' p TS ST' M)].
  - intros k I0. repeat (destruct I0 as [<-|I0]; [|]); [..|destruct I0].
    + destruct (to_string_numeral n) as (x & D & _). destruct (Z.lt_ge_cases n 0) as [L|L]; [eexists; apply Gives_chr_negative; [exact L|exact D]|].
      assert (C : character n \/ ~ character n) by (unfold character; lia). destruct C as [C|C]; eexists; [apply Gives_chr, C|apply Gives_chr_not; [exact L|exact C|exact D]].
    + destruct (Z.lt_ge_cases n 0) as [L|L]; [eexists; apply Gives_space_not, L|].
      pose proof (C30_space n) as H. rewrite (ltb_no n L) in H. destruct H as (b & x & _ & _ & LX & FX). eexists. eapply Gives_space; eassumption.
  - intros k I0. destruct (Z.lt_ge_cases n 0) as [L|L]; repeat (destruct I0 as [<-|I0]; [|]); try destruct I0.
    + eexists. apply Gives_left_not; assumption.
    + eexists. apply Gives_right_not; assumption.
    + eexists. apply Gives_mid_not; assumption.
    + pose proof (C30_left _ _ n (text_is s TS)) as H. rewrite (ltb_no n L) in H. destruct H as (b & x & _ & _ & PA). eexists. eapply Gives_left; eassumption.
    + pose proof (C30_right _ _ n (text_is s TS)) as H. rewrite (ltb_no n L) in H. destruct H as (b & x & _ & _ & PA). eexists. eapply Gives_right; eassumption.
    + pose proof (C30_mid _ _ n None (text_is s TS)) as H. rewrite (ltb_no n L) in H. destruct H as (b & x & _ & _ & PA). eexists. eapply Gives_mid; [exact TS|exact L|exact PA|].
      unfold upto. lia.
  - destruct (Z.lt_ge_cases n 0) as [L|L]; [eexists; apply Gives_mid_length_not; assumption|].
    destruct (Z.lt_ge_cases l 0) as [L'|L']; [eexists; apply Gives_mid_not_length; assumption|].
    pose proof (C30_mid _ _ n (Some l) (text_is s TS)) as H. rewrite (ltb_no n L), (ltb_no l L') in H. destruct H as (b & x & _ & _ & PA).
    eexists. eapply (Gives_mid_length _ _ _ _ s n l); try eassumption. replace (length s - upto n s) with (length s - Z.to_nat n) by (unfold upto; lia). exact PA.
  - destruct d as [[|]|x|z|y].
    + eexists. apply Gives_str, Shows_true.
    + eexists. apply Gives_str, Shows_false.
    + assert (ND : {negative_double x} + {~ negative_double x}).
      { unfold negative_double. destruct (N.testbit x 63); [|right; intros [_ E]; discriminate E].
        destruct (f64_sf x); [left; split; [discriminate|reflexivity]..| |left; split; [discriminate|reflexivity]]. right. intros [E _]. apply E. reflexivity. }
      destruct ND; eexists; apply Gives_str; [apply Shows_negative_double|apply Shows_positive_double]; assumption.
    + destruct (to_string_numeral z) as (x & D & _). destruct (Z.lt_ge_cases z 0); eexists; apply Gives_str; [apply Shows_negative|apply Shows_positive]; eassumption.
    + eexists. apply Gives_str, Shows_text.
  - destruct (C31_instr None _ _ _ _ (text_is s TS) (text_is t TT)) as (i & _ & F). eexists. eapply Gives_instr; eassumption.
  - destruct (Z.lt_ge_cases 0 n) as [L|L]; [|eexists; apply Gives_instr_not; assumption].
    pose proof (C31_instr (Some n) _ _ _ _ (text_is s TS) (text_is t TT)) as C. cbv iota beta in C. rewrite (proj2 (Z.ltb_lt 0 n) L) in C. destruct C as (i & _ & F).
    eexists. eapply Gives_instr_from; eassumption.
Qed.
Print Assumptions C76_every_call.

(** In programs, [a = f(args)] leaves that value in the variable, or fails with that message. *)
Theorem C76_function : forall powf lowercase uppercase show_double parse_f64 (W : Type) upcall others defined n hidden up defs k img x x' a p v q args md syn gs r t c m
    (s s1 : env W),
  linked up defs upcall k img defined (value_calls (strings_does lowercase uppercase show_double parse_f64) string_names others) ->
  compiled_in up defs k img x [StAssignment a p (ECall v q args)] x' -> stmt_fine (k_syms k) (StAssignment a p (ECall v q args)) ->
  ready (runnable img) (k_syms k) hidden x c m s ->
  get_callable (ls_global (k_syms k)) (ascii_upper (vr_name v)) = Some md -> chosen md (length args) syn ->
  delivers powf (get_callable (ls_global (k_syms k))) (is_variable (k_syms k))
    (linked_calls powf k defined (value_calls (strings_does lowercase uppercase show_double parse_f64) string_names others) (S n)) false s (wants syn args) (Ok gs) s1 ->
  gives lowercase uppercase show_double parse_f64 (ascii_upper (vr_name v)) gs r ->
  declared (k_syms k) (ascii_upper (vr_name a)) = Some t ->
  match r with
  | Ok d => forall d', convert t d = Some (Ok d') ->
      outcome_of powf upcall (runnable img) (k_syms k) hidden x' c m (store s1 (ascii_upper (vr_name a)) (Scalar d')) SigNormal
  | Err msg => exists c' m', runs powf upcall (runnable img) c m c' m' /\
      (gives_up powf upcall (runnable img) c' m' \/ fails powf upcall (runnable img) c' m' (XUpcall msg) (world s1))
  end.
Proof.
  intros * LN CI FI R GC CH DE D T. pose proof (lib_function powf _ _ _ _ _ _ _ _ _ LN n hidden x x' a p v q args md syn gs
    (match r with Ok d => Ok (Some d) | Err msg => Err msg end) (world s1) t c m s s1 CI FI R GC CH DE
    (conj eq_refl (ex_intro _ r (conj D eq_refl))) T) as H.
  destruct r as [d|msg]; [|exact H]. intros d' CV. specialize (H d' CV). destruct s1. exact H.
Qed.
Print Assumptions C76_function.

(** ** The functions together *)

Section Together.
Variables (lowercase uppercase : ustr -> ustr) (show_double : N -> ustr) (parse_f64 : ustr -> N).
Notation gives := (gives lowercase uppercase show_double parse_f64).

(** [LEFT(s, n) + MID(s, n)] is [s], for every [n] that is not negative; and LEFT has [n]
    characters, or all that there are. *)
Theorem C76_left_mid : forall s n a b, gives (u "LEFT") [GValue (CText s); GValue (CInt n)] (Ok (CText a)) ->
  gives (u "MID") [GValue (CText s); GValue (CInt n)] (Ok (CText b)) -> a ++ b = s /\ length a = Nat.min (Z.to_nat n) (length s).
Proof.
  intros s n a b HA HB. destruct (left_inv _ _ _ _ _ _ _ HA) as (p & q & E & LP & LA). destruct (mid_inv _ _ _ _ _ _ _ HB) as (k & (p' & q' & E' & LP' & LB) & K).
  split; [|exact LA]. destruct p; [|discriminate LP]. cbn [app] in E.
  assert (Q : q' = []). { pose proof (f_equal (@length N) E') as LS. rewrite !app_length, LP', LB in LS. apply length_zero_iff_nil. lia. } subst q'. rewrite app_nil_r in E'.
  pose proof (eq_trans (eq_sym E) E') as EE. apply app_inj_length in EE; [|rewrite LA, LP'; reflexivity]. destruct EE as [_ EE]. rewrite <- EE. symmetry. exact E.
Qed.

(** [ASC(CHR(i))] is [i] and [CHR(ASC(s))] is [s], when they have values. *)
Theorem C76_asc_chr : forall i t d, gives (u "CHR") [GValue (CInt i)] (Ok (CText t)) -> gives (u "ASC") [GValue (CText t)] (Ok d) -> d = CInt i.
Proof.
  intros * HC HA. destruct (chr_inv _ _ _ _ _ _ HC) as [C ->]. destruct (asc_inv _ _ _ _ _ _ HA) as (c & E & ->). injection E as <-.
  unfold character in C. rewrite Z2N.id by lia. reflexivity.
Qed.
Theorem C76_chr_asc : forall i t d, gives (u "ASC") [GValue (CText t)] (Ok (CInt i)) -> gives (u "CHR") [GValue (CInt i)] d -> d = Ok (CText t).
Proof.
  intros * HA HC. destruct (asc_inv' _ _ _ _ _ _ HA) as (c & -> & T & ->). inversion T as [|? ? C _]; subst.
  assert (CH : character (Z.of_N c)) by (unfold character; unfold is_char in C; lia).
  rewrite (chr_value _ _ _ _ _ _ HC CH), N2Z.id. reflexivity.
Qed.

(** [VAL(STR(i))] reads all of the digits of the integer [i], and its sign. *)
Theorem C76_val_str : forall i t x, gives (u "STR") [GTag (VImmediate SepEnd TInteger); GValue (CInt i)] (Ok (CText t)) ->
  gives (u "VAL") [GValue (CText t)] (Ok (CDouble x)) -> exists d, numeral i d /\ x = parse_f64 ((if (i <? 0)%Z then [45%N] else []) ++ d).
Proof. exact (val_str lowercase uppercase show_double parse_f64). Qed.

(** TRIM takes nothing from a text that it gave, and nor do LTRIM and RTRIM. *)
Theorem C76_trim_again : forall s t v, gives (u "TRIM") [GValue (CText s)] (Ok (CText t)) ->
  forall k, In k [u "TRIM"; u "LTRIM"; u "RTRIM"] -> gives k [GValue (CText t)] v -> v = Ok (CText t).
Proof. exact (trim_again lowercase uppercase show_double parse_f64). Qed.
End Together.
Print Assumptions C76_left_mid.
Print Assumptions C76_asc_chr.
Print Assumptions C76_chr_asc.
Print Assumptions C76_val_str.
Print Assumptions C76_trim_again.

(** ** Cases *)

(** Some functions to try with. *)
Definition lower76 (s : ustr) : ustr := s.
Definition upper76 (s : ustr) : ustr := ascii_upper s.
Definition show76 (x : N) : ustr := u "1".
Definition parse76 (s : ustr) : N := 0x4004000000000000%N.
Definition provided76 := @strings_provided lower76 upper76 show76 parse76 unit.
Definition strings76 (ups : list ustr) := lib_host provided76 no_host ups.
Definition call2_ (f : string) (a b : expr) : expr := ECall (v_ f) at_ [(Some a, SepLong, at_); (Some b, SepEnd, at_)].
(** Here is
<<
a = TRIM("  abcd ")
b = LEFT(a, 3)
n = INSTR(a, "cd")
c = MID(b, n - 2)
d = UCASE(c + STR(n))
m = ASC(d)
>>
    where [c] is [bc] and the last one fails. *)
Definition p76 : list stmt :=
  [set_ "a" (call_ "trim" (txt_ "  abcd ")); set_ "b" (call2_ "left" (var_ "a") (int_ 3)); set_ "n" (call2_ "instr" (var_ "a") (txt_ "cd"));
   set_ "c" (call2_ "mid" (var_ "b") (bin_ BSubtract (var_ "n") (int_ 2))); set_ "d" (call_ "ucase" (bin_ BAdd (var_ "c") (call_ "str" (var_ "n"))));
   set_ "m" (call_ "asc" (var_ "d"))].
Example C76_machine_case : exists img, compile_new (lib_upcalls provided76) [] (p76, None) = (Compiled, img) /\
  forall powf, exists c m, runs powf (strings76 (ci_upcalls img)) (runnable img) (ctx_new 100) (mkMem (heap_new 10000) tt) c m /\
    fails powf (strings76 (ci_upcalls img)) (runnable img) c m (XUpcall (u "Input string ""BC 3"" must be 1-character long")) tt.
Proof.
  eexists. split; [vm_compute; reflexivity|]. intros powf. do 2 eexists. split; [talk_|].
  eapply fails_by; [left; vm_compute; reflexivity|vm_compute; reflexivity|vm_compute; reflexivity|vm_compute; reflexivity|vm_compute; reflexivity].
Qed.

(** [x = INSTR("abcab", "ab")] is 1 and [x = ASC("ab")] fails, through [C76_function]. *)
Definition upcalls76 : list (ustr * callable_md) := lib_upcalls provided76.
Definition calls76 := value_calls (strings_does lower76 upper76 show76 parse76) string_names (@no_calls unit).
Definition k76 : compiler := match compiler_new upcalls76 [] with COk k => k | _ => mkCompiler tctx_new (enter_scope (gs_new [])) end.
Definition x76 : sst := (set_gen (pop_eof (t_gen (k_ctx k76))) (k_ctx k76), k_syms k76).
Definition y76 (p : list stmt) : sst := match compile_stmts p x76 with COk x => x | _ => x76 end.
Definition k76' (p : list stmt) : compiler := snd (fst (compile_more k76 cimage_default (p, None))).
Definition img76 (p : list stmt) : cimage := snd (compile_more k76 cimage_default (p, None)).
Lemma strings_named k gs w r w' : strings_does lower76 upper76 show76 parse76 (W := unit) k gs w r w' -> assoc upcalls76 k <> None.
Proof. intros (_ & v & H & _). destruct H; vm_compute; discriminate. Qed.
Lemma hosted76 p : gs_user (ls_global (k_syms (k76' p))) = [] -> gs_upcalls (ls_global (k_syms (k76' p))) = upcalls76 ->
  gs_vars (ls_global (k_syms (k76' p))) = [] -> ls_locals (k_syms (k76' p)) = [(u "X", (PScalar TInteger, 0%N))] ->
  hosted (strings76 (ci_upcalls (img76 p))) (k76' p) (img76 p) calls76.
Proof.
  intros GU GP GV GL. split.
  - intros k. right. rewrite GV. reflexivity.
  - split.
    + intros k md. rewrite GU. discriminate.
    + intros k md. rewrite GP. unfold upcalls76, lib_upcalls, provided76, strings_provided, stringy. cbn [map pv_name pv_md assoc].
      repeat match goal with |- context [ustr_eqb ?a k] => destruct (ustr_eqb a k); [intros E; injection E as <-; reflexivity|] end. discriminate.
    + intros k md _. rewrite GV. reflexivity.
    + intros k md t n i _. rewrite GL. unfold id_get. cbn [find fst snd]. destruct (ustr_eqb (u "X") k); discriminate.
  - rewrite GP. unfold upcalls76. rewrite <- (app_nil_r (lib_upcalls _)). apply C76_strings_obeys. split; try (intros; contradiction). reflexivity.
  - intros k gs s r s'. rewrite GP. intros [k0 gs0 s0 r0 w0 D|? ? ? ? ? _ []]. eapply strings_named. exact D.
Qed.
Definition args76 : list argspan := [(Some (txt_ "abcab"), SepLong, at_); (Some (txt_ "ab"), SepEnd, at_)].
Definition set76 : stmt := StAssignment (v_ "x") at_ (ECall (v_ "instr") at_ args76).
Lemma compiled76 : compiled_in upcalls76 [] (k76' [set76]) (img76 [set76]) x76 [set76] (y76 [set76]).
Proof.
  eapply (compiled_now upcalls76 [] [] k76 cimage_default [] [set76] []); [apply session_start; reflexivity| |reflexivity|]; vm_compute; reflexivity.
Qed.
Lemma fine76 : stmt_fine (k_syms (k76' [set76])) set76.
Proof. intros e o O. inversion O; subst. split; [vm_compute; repeat split; try exact Logic.I; discriminate|]. intros v E. injection E as <-. split; [intros w p L0; discriminate L0|]. left. vm_compute. reflexivity. Qed.
Lemma hosted76_set : hosted (strings76 (ci_upcalls (img76 [set76]))) (k76' [set76]) (img76 [set76]) calls76.
Proof. apply hosted76; vm_compute; reflexivity. Qed.
Definition md76 : callable_md := match assoc upcalls76 (u "INSTR") with Some md => md | None => mkMd [] None false [] false end.
Definition syn76 : callable_syntax := mkSyntax [req "expr" TText comma; req "search" TText SepEndOnly] None.
Example C76_function_case : forall powf, exists s', vals s' (u "X") = Some (Scalar (CInt 1)) /\
  outcome_of powf (strings76 (ci_upcalls (img76 [set76]))) (runnable (img76 [set76])) (k_syms (k76' [set76])) (fun _ => None) (y76 [set76])
    (ctx_new 100) (mkMem (heap_new 10000) tt) s' SigNormal.
Proof.
  intros powf. exists (store (mkEnv (fun _ => None) tt) (u "X") (Scalar (CInt 1))). split; [reflexivity|].
  refine (C76_function powf lower76 upper76 show76 parse76 unit _ no_calls (fun _ _ => False) 0 (fun _ => None) upcalls76 [] (k76' [set76]) (img76 [set76]) x76 (y76 [set76])
    (v_ "x") at_ (v_ "instr") at_ args76 md76 syn76 [GValue (CText (u "abcab")); GValue (CText (u "ab"))] (Ok (CInt 1)) TInteger _ _ (mkEnv (fun _ => None) tt)
    (mkEnv (fun _ => None) tt) (linked_nothing _ _ _ _ _ _ hosted76_set) compiled76 fine76 _ _ _ _ _ _ _ eq_refl).
  - split; [reflexivity|]. apply new_holds. reflexivity.
  - vm_compute. reflexivity.
  - exists [], [mkSyntax [req "start" TInteger comma; req "expr" TText comma; req "search" TText SepEndOnly] None].
    split; [reflexivity|]. split; [reflexivity|intros y []].
  - unfold wants. cbn [sy_singular sy_repeated fixed_wants fixed_want app syn76 args76].
    eapply (D_more _ _ _ _ _ _ _ _ [GValue (CText (u "abcab"))]); [apply G_plain; eapply A_value; [apply V_text|reflexivity]|].
    eapply (D_more _ _ _ _ _ _ _ _ [GValue (CText (u "ab"))]); [apply G_plain; eapply A_value; [apply V_text|reflexivity]|apply D_none].
  - apply Gives_instr; [repeat constructor|repeat constructor|vm_compute; reflexivity|].
    right. exists 0. split; [reflexivity|]. split; [discriminate|]. split; [exists [], (u "cab"); split; reflexivity|]. intros j _ L. lia.
  - vm_compute. reflexivity.
Qed.

(** LEFT and MID of a text with a character of two bytes, and VAL of STR of -12. *)
Example C76_left_mid_case : exists a b, gives lower76 upper76 show76 parse76 (u "LEFT") [GValue (CText [97; 233; 98]%N); GValue (CInt 2)] (Ok (CText a)) /\
  gives lower76 upper76 show76 parse76 (u "MID") [GValue (CText [97; 233; 98]%N); GValue (CInt 2)] (Ok (CText b)) /\ a = [97; 233]%N /\ b = [98%N].
Proof.
  exists [97; 233]%N, [98%N]. split; [|split; [|split; reflexivity]].
  - apply Gives_left; [repeat constructor|discriminate|]. exists [], [98%N]. repeat split.
  - apply (Gives_mid _ _ _ _ _ _ _ 1); [repeat constructor|discriminate| |reflexivity]. exists [97; 233]%N, []. repeat split.
Qed.
Example C76_asc_chr_case : gives lower76 upper76 show76 parse76 (u "CHR") [GValue (CInt 233)] (Ok (CText [233%N])) /\
  gives lower76 upper76 show76 parse76 (u "ASC") [GValue (CText [233%N])] (Ok (CInt 233)).
Proof. split; [apply (Gives_chr _ _ _ _ 233); left; lia|apply (Gives_asc _ _ _ _ 233); repeat constructor]. Qed.
Example C76_trim_case : gives lower76 upper76 show76 parse76 (u "TRIM") [GValue (CText (u " a b "))] (Ok (CText (u "a b"))).
Proof.
  apply (Gives_trim _ _ _ _ _ (u "a b ")); [repeat constructor| |].
  - exists (u " "). split; [reflexivity|]. split; [repeat constructor|]. intros c r E. injection E as <- _. reflexivity.
  - exists (u " "). split; [reflexivity|]. split; [repeat constructor|]. intros c r E. change (u "a b") with (u "a " ++ [98%N]) in E.
    apply app_inj_tail in E. destruct E as [_ <-]. reflexivity.
Qed.
Example C76_val_str_case : exists x, gives lower76 upper76 show76 parse76 (u "STR") [GTag (VImmediate SepEnd TInteger); GValue (CInt (-12))] (Ok (CText (u "-12"))) /\
  gives lower76 upper76 show76 parse76 (u "VAL") [GValue (CText (u "-12"))] (Ok (CDouble x)).
Proof.
  eexists. split.
  - apply (Gives_str _ _ _ _ (CInt (-12))). apply (Shows_negative _ (-12) (u "12")); [reflexivity|].
    split; [repeat constructor; vm_compute; discriminate|]. split; [discriminate|]. split; [intros r E; discriminate E|reflexivity].
  - apply (Gives_val _ _ _ _ _ (u "-12") (u "-12")); [repeat constructor| |].
    + exists []. split; [reflexivity|]. split; [constructor|]. intros c r E. injection E as <- _. reflexivity.
    + split; [|split; [exists []; reflexivity|]].
      * exists [45%N], (u "12"), []. split; [reflexivity|]. split; [right; right; reflexivity|]. split; [|left; reflexivity].
        left. split; [repeat constructor; vm_compute; discriminate|discriminate].
      * intros q r E _. change (collect (u "-12")) with (u "-12") in E. rewrite E, app_length. lia.
Qed.
