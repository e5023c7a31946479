(** [INPUT] does what it should. *)
From Coq Require Import String.
From Verif Require Import Base Bytecode_Model Bytecode_Spec Bytecode_Proofs Mem_Model Mem_Spec Mem_Proofs Num_Model Vm_Model
  Vm_Spec Vm_Proofs Ids_Model Ids_Proofs Ast_Model Syms_Model Syms_Proofs Codegen_Model Exprs_Model Text_Model Strings_Model Strings_Spec
  Strings_Proofs Args_Spec Eval_Spec Eval_Proofs Call_Spec Run_Proofs Call_Proofs Host_Model Host_Proofs Host_Case Exec_Spec
  Exec_Proofs Simple_Proofs Cmds_Model Input_Model Input_Spec.
Local Open Scope string_scope.
Local Open Scope list_scope.
Local Open Scope nat_scope.

(** ** Answers *)

Lemma trim_end_spec s : without_end s (trim_end s).
Proof.
  unfold trim_end. remember (rev s) as r eqn:E. assert (E' : s = rev r) by (rewrite E, rev_involutive; reflexivity). clear E. subst s.
  assert (X : exists b, r = b ++ trim_left r /\ spaces b /\ no_space_first (trim_left r)).
  { induction r as [|c r IH]; cbn [trim_left].
    - exists []. split; [reflexivity|]. split; [constructor|]. intros c r E. discriminate E.
    - destruct (is_whitespace c) eqn:Q.
      + destruct IH as (b & A & B & C). exists (c :: b). split; [cbn [app]; rewrite <- A; reflexivity|]. split; [constructor; assumption|exact C].
      + exists []. split; [reflexivity|]. split; [constructor|]. intros c' r' E. injection E as <- _. exact Q. }
  destruct X as (b & A & B & C). exists (rev b). split; [|split].
  - rewrite A at 1. apply rev_app_distr.
  - unfold spaces in *. apply Forall_rev. exact B.
  - intros c q E. apply (C c (rev q)). rewrite <- (rev_involutive (trim_left r)), E, rev_app_distr. reflexivity.
Qed.

(** There is one way to do it. *)
Lemma without_end_unique s t t' : without_end s t -> without_end s t' -> t = t'.
Proof.
  assert (X : forall s t t' b b', s = t ++ b -> s = t' ++ b' -> spaces b -> no_space_last t' -> length t <= length t' -> t = t').
  { clear. intros s t t' b b' E E' SB NL LE. rewrite E in E'. clear s E.
    assert (Y : exists q, t' = t ++ q /\ b = q ++ b').
    { revert t' E' LE NL. induction t as [|c t IH]; intros t' E' LE NL.
      - exists t'. split; [reflexivity|exact E'].
      - destruct t' as [|c' t']; [cbn [length] in LE; lia|]. cbn [app] in E'. injection E' as -> E'.
        destruct (IH t' E') as (q & A & B); [cbn [length] in LE; lia| |].
        + intros x r0 E. apply (NL x (c' :: r0)). rewrite E. reflexivity.
        + exists q. split; [cbn [app]; rewrite A; reflexivity|exact B]. }
    destruct Y as (q & A & B). destruct q as [|x q] using rev_ind; [rewrite A, app_nil_r; reflexivity|]. exfalso.
    assert (F : is_whitespace x = false) by (apply (NL x (t ++ q)); rewrite A, app_assoc; reflexivity).
    unfold spaces in SB. rewrite B, !Forall_app in SB. destruct SB as [[_ SB] _]. inversion SB as [|? ? T _]; subst. congruence. }
  intros (b & E & SB & NL) (b' & E' & SB' & NL'). destruct (Nat.le_ge_cases (length t) (length t')).
  - eapply X; [exact E|exact E'|..]; assumption.
  - symmetry. eapply X; [exact E'|exact E|..]; assumption.
Qed.

Section Input.
Variable uc : N -> list N.
Variable parse_f64 : ustr -> option N.
Notation meant := (meant uc parse_f64).
Notation parse_answer := (parse_answer uc parse_f64).

Lemma in_eqb (l : list ustr) x : existsb (ustr_eqb x) l = true <-> In x l.
Proof.
  rewrite existsb_exists. split.
  - intros (y & A & B). apply ustr_eqb_eq in B. subst y. exact A.
  - intros A. exists x. split; [exact A|apply ustr_eqb_refl].
Qed.

Lemma parse_meant t s d : parse_answer t s = Ok d <-> meant t s d.
Proof.
  destruct t; cbn [Input_Model.parse_answer].
  - unfold parse_boolean. set (raw := flat_map uc s).
    pose proof (in_eqb [u "TRUE"; u "YES"; u "Y"] raw) as Y. pose proof (in_eqb [u "FALSE"; u "NO"; u "N"] raw) as NO.
    cbn [existsb] in Y, NO. rewrite orb_false_r, orb_assoc in Y, NO.
    destruct (ustr_eqb raw (u "TRUE") || ustr_eqb raw (u "YES") || ustr_eqb raw (u "Y")) eqn:QY.
    + split; [intros E; injection E as <-; apply Means_yes, Y; reflexivity|]. intros M. inversion M as [? I0|? I0| | |]; subst; [reflexivity|].
      exfalso. pose proof (proj1 Y eq_refl) as I1. fold raw in I0. clear -I0 I1. cbn [In] in I0, I1.
      destruct I1 as [I1|[I1|[I1|[]]]], I0 as [I0|[I0|[I0|[]]]]; rewrite <- I1 in I0; discriminate I0.
    + destruct (ustr_eqb raw (u "FALSE") || ustr_eqb raw (u "NO") || ustr_eqb raw (u "N")) eqn:QN.
      * split; [intros E; injection E as <-; apply Means_no, NO; reflexivity|]. intros M. inversion M as [? I0|? I0| | |]; subst; [|reflexivity].
        apply Y in I0. discriminate I0.
      * split; [discriminate|]. intros M. inversion M as [? I0|? I0| | |]; subst; [apply Y in I0|apply NO in I0]; discriminate I0.
  - unfold parse_double. destruct (parse_f64 s) as [x|] eqn:Q.
    + split; [intros E; injection E as <-; apply Means_double, Q|]. intros M. inversion M; subst. congruence.
    + split; [discriminate|]. intros M. inversion M; subst. congruence.
  - destruct (parse_integer s) as [z|] eqn:Q.
    + split; [intros E; injection E as <-; apply parse_integer_spec in Q; apply Means_integer; apply Q|]. intros M. inversion M; subst.
      assert (X : parse_integer s = Some z0) by (apply parse_integer_spec; auto). congruence.
    + split; [discriminate|]. intros M. inversion M; subst.
      assert (X : parse_integer s = Some z) by (apply parse_integer_spec; auto). congruence.
  - split; [intros E; injection E as <-; apply Means_text|]. intros M. inversion M; subst. reflexivity.
Qed.

Lemma parse_meaningless t s msg : meaningless uc parse_f64 t s msg -> parse_answer t s = Err msg.
Proof.
  intros [NM ->]. destruct (parse_answer t s) as [d|e] eqn:Q; [apply parse_meant in Q; exfalso; exact (NM d Q)|].
  f_equal. revert Q. destruct t; cbn [Input_Model.parse_answer kind].
  - unfold parse_boolean.
    repeat match goal with |- context [if ?b then _ else _] => destruct b end; intros E; try discriminate E; injection E as <-; reflexivity.
  - unfold parse_double. destruct (parse_f64 s); intros E; try discriminate E; injection E as <-; reflexivity.
  - destruct (parse_integer s); intros E; try discriminate E; injection E as <-; reflexivity.
  - discriminate.
Qed.

Context {W : Type}.
Variable read_line : ustr -> ustr -> W -> W * line_read.
Variable perform : con_op -> W -> W * option ustr.

Lemma asks_loop t prompt n before w r w' : asks uc parse_f64 read_line perform t prompt n before w r w' ->
  forall attempts, n <= attempts -> input_loop uc parse_f64 read_line perform attempts t prompt before w = Some (w', r).
Proof.
  intros H. induction H as [before w line w' s d RL WE M|n before w line w1 s msg w2 r w' RL WE ML P H IH|n before w msg w1 w2 r w' RL P H IH
    |before w msg w' RL|before w line w1 s msg w' e RL WE ML P|before w msg w1 w' e RL P]; intros [|k] LE; try lia;
    cbn [input_loop]; rewrite RL.
  - rewrite (without_end_unique _ _ _ (trim_end_spec line) WE). apply parse_meant in M. rewrite M. reflexivity.
  - rewrite (without_end_unique _ _ _ (trim_end_spec line) WE), (parse_meaningless _ _ _ ML), P. apply IH. lia.
  - rewrite P. apply IH. lia.
  - reflexivity.
  - rewrite (without_end_unique _ _ _ (trim_end_spec line) WE), (parse_meaningless _ _ _ ML), P. reflexivity.
  - rewrite P. reflexivity.
Qed.

(** The other way round: the loop does nothing else. *)
Lemma loop_asks t prompt : forall attempts before w r w',
  input_loop uc parse_f64 read_line perform attempts t prompt before w = Some (w', r) ->
  exists n, n <= attempts /\ asks uc parse_f64 read_line perform t prompt n before w r w'.
Proof.
  assert (ML : forall s e, parse_answer t s = Err e -> meaningless uc parse_f64 t s e).
  { intros s e Q. assert (NM : forall d, ~ meant t s d) by (intros d M; apply parse_meant in M; congruence).
    pose proof (parse_meaningless t s _ (conj NM eq_refl)) as E. split; [exact NM|]. congruence. }
  induction attempts as [|k IH]; intros before w r w' E; [discriminate E|]. cbn [input_loop] in E.
  destruct (read_line prompt before w) as [w1 [line|msg|msg]] eqn:RL.
  - destruct (parse_answer t (trim_end line)) as [d|e] eqn:Q.
    + injection E as <- <-. exists 1. split; [lia|]. eapply Asks_value; [exact RL|apply trim_end_spec|apply parse_meant, Q].
    + destruct (perform (OpPrint (u "Retry input: " ++ e)) w1) as [w2 [f|]] eqn:P.
      * injection E as <- <-. exists 1. split; [lia|]. eapply Asks_mute; [exact RL|apply trim_end_spec|apply ML, Q|exact P].
      * apply IH in E. destruct E as (n & LE & A). exists (S n). split; [lia|].
        eapply Asks_again; [exact RL|apply trim_end_spec|apply ML, Q|exact P|exact A].
  - destruct (perform (OpPrint (u "Retry input: " ++ msg)) w1) as [w2 [f|]] eqn:P.
    + injection E as <- <-. exists 1. split; [lia|]. eapply Asks_invalid_mute; eassumption.
    + apply IH in E. destruct E as (n & LE & A). exists (S n). split; [lia|]. eapply Asks_invalid; eassumption.
  - injection E as <- <-. exists 1. split; [lia|]. eapply Asks_fails, RL.
Qed.

(** The value is of the type of the variable. *)
Lemma asks_type t prompt n before w d w' : asks uc parse_f64 read_line perform t prompt n before w (Ok d) w' ->
  cdatum_etype d = t /\ (forall z, d = CInt z -> in_i32 z).
Proof.
  intros H. remember (Ok d) as r eqn:R. induction H; try discriminate R; auto. injection R as ->.
  match goal with M : Input_Spec.meant _ _ _ _ _ |- _ => inversion M; subst end; (split; [reflexivity|]); intros z' E; try discriminate E; injection E as <-; assumption.
Qed.
End Input.

(** ** A variable gets a value *)

Section Store.
Variable img : image.
Context {W : Type}.

(** What [set_boolean] and so on do to a variable that a command is given. *)
Lemma leaves_variable L hidden ls c (m : mem W) s first gs j k t d w :
  tables_ok (by_now L ls) -> holding L hidden (i_constants img) ls None c m s ->
  (64 + N.of_nat (id_len (ls_locals ls)) <= first < 256)%N -> laid L ls (i_constants img) c m (reg_index c first) gs ->
  ((exists k' t', In (GRef k' t') gs) -> 0 < length (c_regs c)) -> nth_error gs j = Some (GRef k (Some t)) ->
  cdatum_etype d = t -> (forall z, d = CInt z -> in_i32 z) ->
  exists index, tagged_ref_parse (scope_get c first j) = Some (index, t) /\ N.to_nat index < length (c_regs c) /\
    (encode m d = None \/ exists h raw, encode m d = Some (h, raw) /\
      served img L hidden ls None c m None gs (Ok None) (store (mkEnv (vals s) w) k (Scalar d))
        (mkUpcall W (upd (c_regs c) (N.to_nat index) raw) h w None)).
Proof.
  intros T HD RR LA GR NTH TD IZ.
  destruct (LA j _ NTH) as (v & r & p & KE & G & TR & PT). specialize (PT t eq_refl). subst p k. cbv iota in TR.
  pose proof (hd_fp _ _ _ _ _ _ _ _ HD) as FP. pose proof (lookup_range (by_now L ls) v r _ (proj1 T) G) as RG. cbn [by_now ls_locals] in RG.
  destruct (tagged_ref_char r (N.of_nat (c_fp c)) t) as (raw0 & TR' & _ & PA).
  { destruct RG as [RG|[_ RG]]; clear -RG; lia. }
  { pose proof (hd_small _ _ _ _ _ _ _ _ HD) as SM. clear -SM. lia. }
  rewrite TR in TR'. injection TR' as <-.
  assert (EI : N.to_nat (absolute_slot r (N.of_nat (c_fp c))) = reg_index c r).
  { unfold absolute_slot, reg_index, register_to_parts, max_global. destruct (N.ltb_spec r 64); cbn [fst snd]; clear -FP; lia. }
  exists (absolute_slot r (N.of_nat (c_fp c))). split; [exact PA|].
  assert (LT : reg_index c r < length (c_regs c)).
  { assert (LB : reg_index c r < reg_index c first).
    { unfold reg_index, register_to_parts, max_global. destruct (N.ltb_spec r 64), (N.ltb_spec first 64); cbn [fst snd]; clear -RG RR FP H H0; lia. }
    destruct (Nat.le_gt_cases (length (c_regs c)) (reg_index c first + j)) as [OUT|IN]; [|clear -LB IN; lia].
    unfold slot in PA. rewrite nth_overflow in PA by exact OUT.
    assert (Z0 : absolute_slot r (N.of_nat (c_fp c)) = 0%N).
    { assert (X : tagged_ref_parse 0 = Some (0%N, TBoolean)) by reflexivity. rewrite X in PA. injection PA as E _. rewrite <- E. reflexivity. }
    rewrite <- EI, Z0. apply GR. exists (ascii_upper (vr_name v)), (Some t). eapply nth_error_In, NTH. }
  rewrite EI. split; [exact LT|].
  destruct (encode m d) as [[h raw]|] eqn:EN; [right|left; reflexivity]. exists h, raw. split; [reflexivity|].
  assert (HK : heap_kept m h /\ stands_for (i_constants img) h t raw d).
  { pose proof (hd_heap _ _ _ _ _ _ _ _ HD) as HO. subst t. destruct d as [b|x|z|x]; cbn [encode] in EN.
    - injection EN as <- <-. split; [apply heap_kept_refl, HO|]. cbn. auto.
    - injection EN as <- <-. split; [apply heap_kept_refl, HO|]. cbn. auto.
    - injection EN as <- <-. split; [apply heap_kept_refl, HO|]. cbn [stands_for cdatum_etype]. split; [reflexivity|].
      split; [apply IZ; reflexivity|]. apply as_i32_of, IZ. reflexivity.
    - split; [|split; [reflexivity|eapply heap_push_text_deref; eassumption]].
      pose proof (heap_push_char m (HText x) HO) as C. rewrite EN in C. split; [eapply heap_push_ok; eassumption|]. apply C. }
  destruct HK as [HK ST].
  set (c' := set_regs c (upd (c_regs c) (reg_index c r) raw)).
  assert (SL : forall i, i <> reg_index c r -> slot c' i = slot c i).
  { intros i NE. unfold slot, c', set_regs. cbn [c_regs].
    pose proof (upd_nth_other (c_regs c) (reg_index c r) i raw (fun E => NE (eq_sym E))) as E.
    destruct (nth_error (c_regs c) i) as [a|] eqn:A.
    - rewrite (nth_error_nth _ _ _ E), (nth_error_nth _ _ _ A). reflexivity.
    - rewrite !nth_overflow; [reflexivity| |]; apply nth_error_None; assumption. }
  right. cbn [u_failure u_regs u_heap u_world]. fold c'.
  split; [reflexivity|]. split; [rewrite upd_length; apply le_n|].
  split; [split; [apply HK|intros i x; apply HK]|]. split; [|split; [|exact Logic.I]].
  - eapply holding_put; [exact T| |exact G|].
    + eapply holding_same with (m := mkMem m w) (c := c); [|apply HD|repeat split|reflexivity|exact HK|].
      * apply holding_skip. destruct HD as [A1 A2 A3 A4 A5 A6 A7 A8 A9 A10]. constructor; auto.
      * intros v' r' p' G' NS. apply SL. intros E. change (reg_index c r' = reg_index c r) in E.
        apply reg_index_inj in E; [|exact FP]. subst r'. apply NS. reflexivity.
    + unfold get_reg. change (reg_index c' r) with (reg_index c r). unfold c', set_regs. cbn [c_regs].
      rewrite (nth_error_nth _ _ _ (upd_nth_same _ _ _ LT)). exact ST.
  - intros i _ NR. apply SL. intros E. apply NR. exists v, r, (PScalar t), (Some t).
    split; [eapply nth_error_In, NTH|]. split; [exact G|exact E].
Qed.
End Store.

(** ** The command *)

Section Host.
Variable uc : N -> list N.
Variable parse_f64 : ustr -> option N.
Context {W : Type}.
Variable read_line : ustr -> ustr -> W -> W * line_read.
Variable perform : con_op -> W -> W * option ustr.
Variable attempts : nat.
Variable ups : list ustr.
Variable img : image.
Variable shared : ustr -> bool.
Variable other : N -> N -> nat -> image -> ctx -> heap -> W -> option (upcall_result W).
Variable others : ustr -> list given -> env W -> res vm_error (option cdatum) -> env W -> Prop.
Variable mds : list (ustr * callable_md).
Hypothesis OB : host_obeys other img ups others mds shared.
Notation host := (input_host uc parse_f64 read_line perform other attempts ups).

Lemma input_other idx k first pc c h w : nth_error ups (N.to_nat idx) = Some k -> k <> u "INPUT" ->
  host idx first pc img c h w = other idx first pc img c h w.
Proof.
  intros UP NC. unfold input_host. rewrite UP. destruct (ustr_eqb k (u "INPUT")) eqn:Q; [apply ustr_eqb_eq in Q; contradiction|reflexivity].
Qed.

Lemma prompts_found gs prompt k t first c (m : mem W) L ls :
  prompts gs prompt -> laid L ls (i_constants img) c m (reg_index c first) (gs ++ [GRef k (Some t)]) ->
  input_prompt (scope_get c first) (fun raw => deref_text raw (i_constants img) m) (length (gs ++ [GRef k (Some t)])) = Some (prompt, length gs).
Proof.
  intros P LA. unfold input_prompt, scope_get. destruct P as [| | |p|p]; cbn [app length Nat.eqb]; try reflexivity.
  all: pose proof (LA 0 _ eq_refl) as T0; cbn [slot_holds] in T0; rewrite T0.
  - rewrite (vararg_roundtrip (VMissing SepLong)). reflexivity.
  - rewrite (vararg_roundtrip (VMissing SepShort)). reflexivity.
  - rewrite (vararg_roundtrip (VImmediate SepLong TText)). pose proof (LA 1 _ eq_refl) as [_ T1]. cbn beta. rewrite T1. reflexivity.
  - rewrite (vararg_roundtrip (VImmediate SepShort TText)). pose proof (LA 1 _ eq_refl) as [_ T1]. cbn beta. rewrite T1. reflexivity.
Qed.

Lemma input_obeys : host_obeys host img ups (input_calls uc parse_f64 read_line perform attempts others) ((u "INPUT", input_md) :: mds) shared.
Proof.
  constructor.
  - intros idx first pc c c' h w R F. unfold input_host, input_exec, scope_get, slot.
    assert (E : reg_index c first = reg_index c' first) by (unfold reg_index; rewrite F; reflexivity).
    rewrite R, E. rewrite (ob_scope _ _ _ _ _ _ OB idx first pc c c' h w R F). reflexivity.
  - intros k gs s r s' k' H SH NG V. destruct H as [gs s r s' H|k gs s r s' _ O]; [|eapply (ob_locals _ _ _ _ _ _ OB); eassumption].
    destruct H as (g0 & prompt & k & t & n & a & w' & -> & _ & _ & _ & H). destruct a as [d|msg].
    + destruct H as [-> ->]. cbn [store vals]. destruct (ustr_eqb k k') eqn:Q; [|exact V]. apply ustr_eqb_eq in Q. subst k'.
      exfalso. apply (NG eq_refl (Some t)). apply in_or_app. right. left. reflexivity.
    + destruct H as [_ ->]. exact V.
  - intros L hidden ls skip c m s idx k md t ret pc gs r s' UP MD RT T HD RR DS LT LA GA CC.
    destruct CC as [gs s r s' H|k gs s r s' NC O].
    + cbn in MD. injection MD as <-. discriminate RT.
    + rewrite (input_other _ _ _ _ _ _ _ UP NC). eapply (ob_function _ _ _ _ _ _ OB); try eassumption.
      cbn [assoc] in MD. destruct (ustr_eqb (u "INPUT") k) eqn:Q; [apply ustr_eqb_eq in Q; congruence|exact MD].
  - intros L hidden ls c m s idx k md first pc gs r s' UP MD RT T HD RR LA GA GR CC.
    destruct CC as [gs s r s' H|k gs s r s' NC O].
    2:{ rewrite (input_other _ _ _ _ _ _ _ UP NC). eapply (ob_command _ _ _ _ _ _ OB); try eassumption.
        cbn [assoc] in MD. destruct (ustr_eqb (u "INPUT") k) eqn:Q; [apply ustr_eqb_eq in Q; congruence|exact MD]. }
    destruct H as (g0 & prompt & k & t & n & a & w' & -> & PR & AK & LE & H).
    unfold input_host. rewrite UP. rewrite ustr_eqb_refl. unfold input_exec.
    destruct GA as (md0 & -> & ->). cbv zeta. rewrite (prompts_found _ _ _ _ _ _ _ _ _ PR LA).
    assert (NTH : nth_error (g0 ++ [GRef k (Some t)]) (length g0) = Some (GRef k (Some t))).
    { rewrite nth_error_app2, Nat.sub_diag by apply le_n. reflexivity. }
    pose proof (asks_loop _ _ _ _ _ _ _ _ _ _ _ AK attempts LE) as LP. rewrite <- (hd_world _ _ _ _ _ _ _ _ HD) in LP.
    destruct a as [d|msg]; destruct H as [-> ->].
    + destruct (asks_type _ _ _ _ _ _ _ _ _ _ _ AK) as [TD IZ].
      destruct (leaves_variable img L hidden ls c m s first _ (length g0) k t d w' T HD RR LA GR NTH TD IZ) as (index & -> & LT & EN).
      rewrite LP. destruct EN as [->|(h & raw & -> & SV)].
      * eexists. split; [reflexivity|]. left. exists None, (u "Out of heap space"). split; reflexivity.
      * destruct (Nat.ltb_spec (N.to_nat index) (length (c_regs c))) as [_|GE]; [|clear -GE LT; lia]. eexists. split; [reflexivity|exact SV].
    + assert (TP : exists index, tagged_ref_parse (scope_get c first (length g0)) = Some (index, t)).
      { destruct (leaves_variable img L hidden ls c m s first _ (length g0) k t (default_value t) w' T HD RR LA GR NTH) as (index & E & _).
        - destruct t; reflexivity.
        - intros z E. destruct t; try discriminate E. injection E as <-. split; discriminate.
        - exists index. exact E. }
      destruct TP as (index & ->). rewrite LP. eexists. split; [reflexivity|]. right. split; [|reflexivity].
      exists None, msg. split; reflexivity.
Qed.
End Host.
