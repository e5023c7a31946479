(** The commands of the console: C67 and C68. *)
From Coq Require Import String.
From Verif Require Import Base Bytecode_Model Mem_Model Num_Model Vm_Model Vm_Spec Ids_Model Ast_Model Syms_Model
  Codegen_Model Exprs_Model Top_Model Incr_Spec Args_Spec Eval_Spec Eval_Props Call_Spec Host_Model Host_Case
  Strings_Model Strings_Spec Exec_Spec Program_Proofs User_Spec User_Proofs Exec_Props User_Props Host_Props Cmds_Model Cmds_Spec Cmds_Proofs Cmds_Host.
Local Open Scope string_scope.
Local Open Scope list_scope.
Local Open Scope nat_scope.

(** * C67 *)

(** The console may be added to any host that does what it should. *)
Theorem C67_console_obeys : forall show (W : Type) (perform : con_op -> W -> W * option ustr) size ups img shared other others mds,
  host_obeys other img ups others mds shared ->
  host_obeys (console_host show perform size other ups) img ups (console_calls show perform size others) (console_upcalls ++ mds) shared.
Proof. intros. apply console_obeys; assumption. Qed.
Print Assumptions C67_console_obeys.

(** [PRINT] writes the text of its arguments, whatever they are, with one operation of the
    console; the program goes on with what that leaves. *)
Theorem C67_print : forall show powf (W : Type) (perform : con_op -> W -> W * option ustr) size other others upcall defined n hidden up defs k img x x' v p args l op w c m
    (s s1 : env W),
  upcall = console_host show perform size other (ci_upcalls img) ->
  linked up defs upcall k img defined (console_calls show perform size others) ->
  compiled_in up defs k img x [StCall v p args] x' -> stmt_fine (k_syms k) (StCall v p args) ->
  ready (runnable img) (k_syms k) hidden x c m s ->
  ascii_upper (vr_name v) = u "PRINT" ->
  get_callable (ls_global (k_syms k)) (u "PRINT") = Some (mkMd (u "PRINT") None false [print_syntax] false) ->
  item_values powf (get_callable (ls_global (k_syms k))) (is_variable (k_syms k))
    (linked_calls powf k defined (console_calls show perform size others) (S n)) s args l s1 ->
  item_list (some_item l) -> length (slots (some_item l)) < 256 -> print_does show (some_item l) op ->
  perform op (world s1) = (w, None) ->
  outcome_of powf upcall (runnable img) (k_syms k) hidden x' c m (mkEnv (vals s1) w) SigNormal.
Proof.
  intros * -> LN CI FI R NV GC V IL LE D P. eapply C63_command with (n := n); try eassumption.
  - rewrite NV. exact GC.
  - exists [], []. split; [reflexivity|]. split; [|intros y []]. split; [apply Nat.le_0_l|discriminate].
  - apply items_deliver. exact V.
  - rewrite NV, told_slots. apply Calls_print with (op := op); [exact IL|exact LE|exact D|]. exists None. auto.
Qed.
Print Assumptions C67_print.

(** As long as all characters take one byte, what follows a comma starts at a multiple of 14
    characters, after one space at least. *)
Theorem C67_fields : forall show l1 v l2 t, Forall (ascii_item show) (l1 ++ [(v, SepLong)]) ->
  spells show [] (l1 ++ (v, SepLong) :: l2) t -> exists pre, spells show (pre ++ [space]) l2 t /\ S (length pre) mod 14 = 0.
Proof. intros * F. apply spells_fields; [constructor|exact F]. Qed.
Print Assumptions C67_fields.

(** A console that keeps the operations, the only commands of a host. *)
Definition no_host {W : Type} (idx first : N) (pc : nat) (img : image) (c : ctx) (h : heap) (w : W) : option (upcall_result W) := None.
Definition no_calls {W : Type} (k : ustr) (gs : list given) (s : env W) (r : res vm_error (option cdatum)) (s' : env W) : Prop := False.
Definition keep (op : con_op) (w : list con_op) : list con_op * option ustr := (w ++ [op], None).
Definition keeper (ups : list ustr) := console_host (fun _ => u "1.5") keep (fun _ => Ok (80, 24)%N) no_host ups.
Definition print_ (args : list argspan) : stmt := StCall (v_ "print") at_ args.

(** Runs [p] and gives what it did to the console. *)
Definition writes (p : list stmt) (ops : list con_op) : Prop := exists img,
  compile_new console_upcalls [] (p, None) = (Compiled, img) /\
  forall powf, exists c m, runs powf (keeper (ci_upcalls img)) (runnable img) (ctx_new 100) (mkMem (heap_new 10000) []) c m /\
    (exists c1 h1, step powf (runnable img) c m = RStop SEof c1 h1) /\ m_world m = ops.

Ltac run_ := repeat first [ eapply runs_step; [vm_compute; reflexivity|]
                          | eapply runs_host; [left; vm_compute; reflexivity|vm_compute; reflexivity|vm_compute; reflexivity|] ]; apply runs_refl.
Ltac writes_ := eexists; split; [vm_compute; reflexivity|]; intros powf; do 2 eexists; split; [run_|]; split; [do 2 eexists; vm_compute; reflexivity|vm_compute; reflexivity].

(** Fields are not aligned if there are characters that take more than one byte.  In
    [PRINT "é", "x"], [x] is the 14th character and not the 15th. *)
Theorem C67_fields_refuted : exists p t,
  p = [print_ [(Some (EText [233%N] at_), SepLong, at_); (Some (txt_ "x"), SepEnd, at_)]] /\
  writes p [OpPrint (t ++ u "x")] /\ length t mod 14 = 13.
Proof.
  exists [print_ [(Some (EText [233%N] at_), SepLong, at_); (Some (txt_ "x"), SepEnd, at_)]], ([233%N] ++ repeat space 12).
  split; [reflexivity|]. split; [writes_|reflexivity].
Qed.
Print Assumptions C67_fields_refuted.

(** Nor are they on the screen, if the command does not start on a new line: in
<<
PRINT "a";
PRINT "b", "c"
>>
    [c] comes after 15 characters of the line. *)
Theorem C67_lines_refuted : exists p t,
  p = [print_ [(Some (txt_ "a"), SepShort, at_); (None, SepEnd, at_)];
       print_ [(Some (txt_ "b"), SepLong, at_); (Some (txt_ "c"), SepEnd, at_)]] /\
  writes p [OpWrite (u "a"); OpPrint (t ++ u "c")] /\ length (u "a" ++ t) mod 14 = 1.
Proof. eexists _, (u "b             "). split; [reflexivity|]. split; [writes_|reflexivity]. Qed.
Print Assumptions C67_lines_refuted.

(** A case: [PRINT "x is"; 3, TRUE; -4; 2.5;: PRINT]. *)
Definition args67 : list argspan :=
  [(Some (txt_ "x is"), SepShort, at_); (Some (int_ 3), SepLong, at_); (Some (EBoolean true at_), SepShort, at_);
   (Some (EUnary UNegate (int_ 4) at_), SepShort, at_); (Some (EDouble 4612811918334230528 at_), SepShort, at_); (None, SepEnd, at_)].
Definition items67 : list item :=
  [(Some (CText (u "x is")), SepShort); (Some (CInt 3), SepLong); (Some (CBool true), SepShort); (Some (CInt (-4)), SepShort);
   (Some (CDouble 4612811918334230528), SepShort); (None, SepEnd)].
Example C67_machine_case : writes [print_ args67; print_ []] [OpWrite (u "x is 3        TRUE -4  1.5 "); OpPrint []].
Proof. writes_. Qed.
Lemma print_does67 : print_does (fun _ => u "1.5") items67 (OpWrite (u "x is 3        TRUE -4  1.5 ")).
Proof.
  apply Does_write.
  - eapply Spells_value with (v := u "x is"); [apply Shows_text|]. apply After_text.
    eapply Spells_value with (v := u " 3"); [apply (Shows_positive _ 3 (u "3")); [lia|]|].
    { split; [repeat constructor; discriminate|]. split; [discriminate|]. split; [intros r E; discriminate E|reflexivity]. }
    eapply After_comma with (k := 8); [lia|reflexivity|].
    eapply Spells_value with (v := u "TRUE"); [apply Shows_true|]. apply After_number; [discriminate|].
    eapply Spells_value with (v := u "-4"); [apply (Shows_negative _ (-4) (u "4")); [lia|]|].
    { split; [repeat constructor; discriminate|]. split; [discriminate|]. split; [intros r E; discriminate E|reflexivity]. }
    apply After_number; [discriminate|].
    eapply Spells_value with (v := u " 1.5"); [apply (Shows_positive_double (fun _ => u "1.5")); intros [_ B]; vm_compute in B; discriminate B|].
    apply After_number; [discriminate|]. apply Spells_nothing. apply After_last.
  - intros [E|(l & d & E)]; [discriminate E|]. change items67 with (removelast items67 ++ [(None, SepEnd)]) in E.
    apply app_inj_tail in E. destruct E as [_ E]. discriminate E.
Qed.

(** The same through [C67_print], in a new machine. *)
Definition p67 : list stmt := [print_ args67].
Definition k67 : compiler := match compiler_new console_upcalls [] with COk k => k | _ => mkCompiler tctx_new (enter_scope (gs_new [])) end.
Definition x67 : sst := (set_gen (pop_eof (t_gen (k_ctx k67))) (k_ctx k67), k_syms k67).
Definition y67 : sst := match compile_stmts p67 x67 with COk x => x | _ => x67 end.
Definition k67' : compiler := snd (fst (compile_more k67 cimage_default (p67, None))).
Definition img67 : cimage := snd (compile_more k67 cimage_default (p67, None)).
Definition calls67 := console_calls (fun _ => u "1.5") keep (fun _ => Ok (80, 24)%N) no_calls.

Lemma console_names k md : assoc console_upcalls k = Some md -> md_user md = false /\ of_console k.
Proof.
  unfold of_console, console_upcalls. cbn [assoc map fst In].
  repeat match goal with |- context [ustr_eqb ?a k] => destruct (ustr_eqb a k) eqn:?; [|] end;
    repeat match goal with E : ustr_eqb _ _ = true |- _ => apply ustr_eqb_eq in E; subst k end;
    intros E; try discriminate E; injection E as <-; auto 10.
Qed.
Lemma hosted67 : hosted (keeper (ci_upcalls img67)) k67' img67 calls67.
Proof.
  assert (GU : gs_user (ls_global (k_syms k67')) = []) by (vm_compute; reflexivity).
  assert (GP : gs_upcalls (ls_global (k_syms k67')) = console_upcalls) by (vm_compute; reflexivity).
  assert (GV : gs_vars (ls_global (k_syms k67')) = []) by (vm_compute; reflexivity).
  assert (GL : ls_locals (k_syms k67') = []) by (vm_compute; reflexivity).
  split.
  - intros k. right. rewrite GV. reflexivity.
  - split.
    + intros k md. rewrite GU. discriminate.
    + intros k md. rewrite GP. apply console_names.
    + intros k md _. rewrite GV. reflexivity.
    + intros k md t n i _. rewrite GL. discriminate.
  - rewrite GP. rewrite <- (app_nil_r console_upcalls). apply C67_console_obeys. split; try (intros; contradiction). reflexivity.
  - intros k gs s r s'. rewrite GP. intros [| | | | | | | |? ? ? ? ? _ []]; vm_compute; discriminate.
Qed.
Lemma compiled67 : compiled_in console_upcalls [] k67' img67 x67 p67 y67.
Proof.
  eapply (compiled_now console_upcalls [] [] k67 cimage_default [] p67 []); [apply session_start; reflexivity| |reflexivity|];
    vm_compute; reflexivity.
Qed.
Lemma fine67 : stmt_fine (k_syms k67') (print_ args67).
Proof.
  intros e o O. inversion O; subst. split; [|discriminate]. match goal with H : In _ args67 |- _ => rename H into I end. cbn [args67 In] in I.
  repeat (destruct I as [I|I]; [try discriminate I; injection I as <- _ _; vm_compute; repeat split; try exact Logic.I; discriminate|]). destruct I.
Qed.
Lemma items_values67 powf calls : item_values powf (get_callable (ls_global (k_syms k67'))) (is_variable (k_syms k67')) calls
  (mkEnv (fun _ => None) []) args67 items67 (mkEnv (fun _ => None) ([] : list con_op)).
Proof.
  eapply Items_value; [apply V_text|]. eapply Items_value; [apply V_integer|]. eapply Items_value; [apply V_boolean|].
  eapply Items_value; [eapply V_unary; [apply V_integer|reflexivity]|]. eapply Items_value; [apply V_double|].
  apply Items_nothing, Items_none.
Qed.
Example C67_case : forall powf, exists s', world s' = [OpWrite (u "x is 3        TRUE -4  1.5 ")] /\
  outcome_of powf (keeper (ci_upcalls img67)) (runnable img67) (k_syms k67') (fun _ => None) y67 (ctx_new 100) (mkMem (heap_new 10000) []) s' SigNormal.
Proof.
  intros powf. exists (mkEnv (fun _ => None) [OpWrite (u "x is 3        TRUE -4  1.5 ")]). split; [reflexivity|].
  refine (C67_print (fun _ => u "1.5") powf _ keep (fun _ => Ok (80, 24)%N) no_host no_calls _ (fun _ _ => False) 0 _ console_upcalls [] k67' img67 x67 y67
    (v_ "print") at_ args67 items67 _ _ _ _ (mkEnv (fun _ => None) []) (mkEnv (fun _ => None) []) eq_refl
    (linked_nothing _ _ _ _ _ _ hosted67) compiled67 fine67 _ eq_refl _ (items_values67 powf _) _ _ print_does67 eq_refl).
  - split; [reflexivity|]. apply new_holds. reflexivity.
  - vm_compute. reflexivity.
  - exists (removelast items67), None. split; [reflexivity|]. repeat (apply Forall_cons; [cbn [snd]; auto|]). apply Forall_nil.
  - vm_compute. repeat constructor.
Qed.

(** * C68 *)

(** [COLOR] with its two arguments, any of which may be left out. *)
Theorem C68_color : forall arg text_of pos a b, given_from arg text_of 0 (color_slots a b) ->
  length pos = length (color_slots a b) ->
  (may_color a -> may_color b -> color_exec arg pos = Some (Ok (OpColor (color_of a) (color_of b)))) /\
  (forall z p, a = Some z -> ~ is_color z -> nth_error pos 1 = Some p ->
     color_exec arg pos = Some (Err (Some p, u "Color out of range"))) /\
  (forall z p, may_color a -> b = Some z -> ~ is_color z -> nth_error pos (second_slot a) = Some p ->
     color_exec arg pos = Some (Err (Some p, u "Color out of range"))).
Proof. exact color_full. Qed.
Print Assumptions C68_color.

(** [COLOR] with the foreground color only, and without arguments. *)
Theorem C68_color_short : forall arg z p, as_i32 (arg 0) = z ->
  (is_color z -> color_exec arg [p] = Some (Ok (OpColor (Some (Z.to_N z)) None))) /\
  (~ is_color z -> color_exec arg [p] = Some (Err (Some p, u "Color out of range"))) /\
  color_exec arg [] = Some (Ok (OpColor None None)).
Proof. exact color_short. Qed.
Print Assumptions C68_color_short.

(** [LOCATE column, row] on a console of [sx] columns and [sy] rows: it moves the cursor if both
    exist, and otherwise tells which one does not. *)
Theorem C68_locate : forall arg column row sx sy p q, as_i32 (arg 0) = column -> as_i32 (arg 1) = row ->
  (0 < sx < 2 ^ 16)%N -> (0 < sy < 2 ^ 16)%N ->
  let r := locate_exec arg [p; q] (Ok (sx, sy)) in
  ((0 <= column < Z.of_N sx)%Z -> (0 <= row < Z.of_N sy)%Z -> r = Some (Ok (OpLocate (Z.to_N column) (Z.to_N row)))) /\
  (~ (0 <= column < 2 ^ 16)%Z -> r = Some (Err (Some p, u "Column out of range"))) /\
  ((0 <= column < 2 ^ 16)%Z -> ~ (0 <= row < 2 ^ 16)%Z -> r = Some (Err (Some q, u "Row out of range"))) /\
  ((Z.of_N sx <= column < 2 ^ 16)%Z -> (0 <= row < 2 ^ 16)%Z ->
     exists msg, r = Some (Err (Some p, msg)) /\ too_large (u "Column") column sx msg) /\
  ((0 <= column < Z.of_N sx)%Z -> (Z.of_N sy <= row < 2 ^ 16)%Z ->
     exists msg, r = Some (Err (Some q, msg)) /\ too_large (u "Row") row sy msg).
Proof. exact locate_full. Qed.
Print Assumptions C68_locate.

(** The statements [COLOR] and [LOCATE] of a program do that to the console, and the program goes on
    or fails. *)
Theorem C68_statement : forall show powf (W : Type) (perform : con_op -> W -> W * option ustr) size other others upcall defined n hidden up defs k img x x' v p args md syn gs o c m
    (s s1 : env W),
  upcall = console_host show perform size other (ci_upcalls img) ->
  linked up defs upcall k img defined (console_calls show perform size others) ->
  compiled_in up defs k img x [StCall v p args] x' -> stmt_fine (k_syms k) (StCall v p args) ->
  ready (runnable img) (k_syms k) hidden x c m s ->
  get_callable (ls_global (k_syms k)) (ascii_upper (vr_name v)) = Some md -> chosen md (length args) syn ->
  delivers powf (get_callable (ls_global (k_syms k))) (is_variable (k_syms k))
    (linked_calls powf k defined (console_calls show perform size others) (S n)) true s (wants syn args) (Ok gs) s1 ->
  (ascii_upper (vr_name v) = u "COLOR" /\ color_does gs o \/
   ascii_upper (vr_name v) = u "LOCATE" /\ locate_does (size (world s1)) gs o) ->
  match o with
  | Ok op => forall w e, perform op (world s1) = (w, e) ->
      match e with
      | None => outcome_of powf upcall (runnable img) (k_syms k) hidden x' c m (mkEnv (vals s1) w) SigNormal
      | Some msg => exists c' m', runs powf upcall (runnable img) c m c' m' /\
          (gives_up powf upcall (runnable img) c' m' \/ fails powf upcall (runnable img) c' m' (XUpcall msg) w)
      end
  | Err msg => exists c' m', runs powf upcall (runnable img) c m c' m' /\
      (gives_up powf upcall (runnable img) c' m' \/ fails powf upcall (runnable img) c' m' (XUpcall msg) (world s1))
  end.
Proof.
  intros * -> LN CI FI R GC CH DE NM.
  assert (TG : map (told (declared (k_syms k))) gs = gs).
  { assert (NR : forall k t, ~ In (GRef k t) gs) by (destruct NM as [[_ D]|[_ D]]; [eapply color_values|eapply locate_values]; exact D).
    clear -NR. induction gs as [|g gs IH]; [reflexivity|]. cbn [map]. rewrite IH; [|intros k0 t I0; apply (NR k0 t); right; exact I0].
    destruct g as [d|t|k0 t]; try reflexivity. exfalso. apply (NR k0 t). left. reflexivity. }
  assert (CC : forall r s2, attempted perform o s1 r s2 -> console_calls show perform size others (ascii_upper (vr_name v)) gs s1 r s2).
  { intros r s2 A. destruct NM as [[-> D]|[-> D]]; [eapply Calls_color|eapply Calls_locate]; eassumption. }
  destruct o as [op|msg].
  - intros w [msg|] P.
    + change w with (world (mkEnv (vals s1) w)). eapply C63_failing_command with (n := n); try eassumption. rewrite TG. apply CC. exists (Some msg). auto.
    + eapply C63_command with (n := n); try eassumption. rewrite TG. apply CC. exists None. auto.
  - eapply C63_failing_command with (n := n); try eassumption. rewrite TG. apply CC. split; reflexivity.
Qed.
Print Assumptions C68_statement.

(** A console without columns crashes the command instead. *)
Theorem C68_no_columns_refuted : exists arg p q, locate_exec arg [p; q] (Ok (0, 24)%N) = None /\ as_i32 (arg 0) = 0%Z /\ as_i32 (arg 1) = 0%Z.
Proof. exists (fun _ => 0%N), at_, at_. repeat split; vm_compute; reflexivity. Qed.
Print Assumptions C68_no_columns_refuted.

(** Cases, in programs: [COLOR 10, 200: COLOR , 3: COLOR 5: COLOR: LOCATE 79, 0: CLS: PRINT SCRCOLS]
    and [LOCATE 3, 24]. *)
Example C68_case : writes
  [StCall (v_ "color") at_ [(Some (int_ 10), SepLong, at_); (Some (int_ 200), SepEnd, at_)];
   StCall (v_ "color") at_ [(None, SepLong, at_); (Some (int_ 3), SepEnd, at_)];
   StCall (v_ "color") at_ [(Some (int_ 5), SepEnd, at_)]; StCall (v_ "color") at_ [];
   StCall (v_ "locate") at_ [(Some (int_ 79), SepLong, at_); (Some (int_ 0), SepEnd, at_)];
   StCall (v_ "cls") at_ []; print_ [(Some (var_ "scrcols"), SepEnd, at_)]]
  [OpColor (Some 10%N) (Some 200%N); OpColor None (Some 3%N); OpColor (Some 5%N) None; OpColor None None; OpLocate 79 0; OpClear;
   OpPrint (u " 80")].
Proof. writes_. Qed.
Example C68_failing_case : forall arg, arg 0 = 3%N -> arg 1 = 24%N ->
  locate_exec arg [(1, 8); (1, 11)]%N (Ok (80, 24)%N) = Some (Err (Some (1, 11)%N, u "Row 24 exceeds visible range of 23")).
Proof. intros arg A B. unfold locate_exec, get_coord. rewrite A, B. vm_compute. reflexivity. Qed.

(** [LOCATE 3, 24] through [C68_statement], in a new machine. *)
Definition args68 : list argspan := [(Some (int_ 3), SepLong, at_); (Some (int_ 24), SepEnd, at_)].
Definition p68 : list stmt := [StCall (v_ "locate") at_ args68].
Definition y68 : sst := match compile_stmts p68 x67 with COk x => x | _ => x67 end.
Definition k68' : compiler := snd (fst (compile_more k67 cimage_default (p68, None))).
Definition img68 : cimage := snd (compile_more k67 cimage_default (p68, None)).
Lemma hosted68 : hosted (keeper (ci_upcalls img68)) k68' img68 calls67.
Proof.
  assert (GU : gs_user (ls_global (k_syms k68')) = []) by (vm_compute; reflexivity).
  assert (GP : gs_upcalls (ls_global (k_syms k68')) = console_upcalls) by (vm_compute; reflexivity).
  assert (GV : gs_vars (ls_global (k_syms k68')) = []) by (vm_compute; reflexivity).
  assert (GL : ls_locals (k_syms k68') = []) by (vm_compute; reflexivity).
  split.
  - intros k. right. rewrite GV. reflexivity.
  - split.
    + intros k md. rewrite GU. discriminate.
    + intros k md. rewrite GP. apply console_names.
    + intros k md _. rewrite GV. reflexivity.
    + intros k md t n i _. rewrite GL. discriminate.
  - rewrite GP. rewrite <- (app_nil_r console_upcalls). apply C67_console_obeys. split; try (intros; contradiction). reflexivity.
  - intros k gs s r s'. rewrite GP. intros [| | | | | | | |? ? ? ? ? _ []]; vm_compute; discriminate.
Qed.
Lemma compiled68 : compiled_in console_upcalls [] k68' img68 x67 p68 y68.
Proof.
  eapply (compiled_now console_upcalls [] [] k67 cimage_default [] p68 []); [apply session_start; reflexivity| |reflexivity|];
    vm_compute; reflexivity.
Qed.
Lemma fine68 : stmt_fine (k_syms k68') (StCall (v_ "locate") at_ args68).
Proof.
  intros e o O. inversion O; subst. split; [|discriminate]. match goal with H : In _ args68 |- _ => rename H into I end. cbn [args68 In] in I.
  repeat (destruct I as [I|I]; [try discriminate I; injection I as <- _ _; vm_compute; repeat split; try exact Logic.I; discriminate|]). destruct I.
Qed.
Lemma numeral68 z d : d <> [] -> digits d -> (forall r, d <> 48%N :: r) -> digits_value 0 d = Z.abs z -> numeral z d.
Proof. intros A B C D. split; [exact B|]. split; [exact A|]. split; [intros r E; destruct (C r E)|exact D]. Qed.
Example C68_statement_case : forall powf, exists c' m',
  runs powf (keeper (ci_upcalls img68)) (runnable img68) (ctx_new 100) (mkMem (heap_new 10000) []) c' m' /\
  (gives_up powf (keeper (ci_upcalls img68)) (runnable img68) c' m' \/
   fails powf (keeper (ci_upcalls img68)) (runnable img68) c' m' (XUpcall (u "Row 24 exceeds visible range of 23")) []).
Proof.
  intros powf.
  refine (C68_statement (fun _ => u "1.5") powf _ keep (fun _ => Ok (80, 24)%N) no_host no_calls _ (fun _ _ => False) 0 (fun _ => None) console_upcalls [] k68' img68 x67 y68
    (v_ "locate") at_ args68 (mkMd (u "LOCATE") None false [locate_syntax] false) locate_syntax [GValue (CInt 3); GValue (CInt 24)]
    (Err (u "Row 24 exceeds visible range of 23")) _ _ (mkEnv (fun _ => None) []) (mkEnv (fun _ => None) []) eq_refl
    (linked_nothing _ _ _ _ _ _ hosted68) compiled68 fine68 _ _ _ _ _).
  - split; [reflexivity|]. apply new_holds. reflexivity.
  - vm_compute. reflexivity.
  - exists [], []. split; [reflexivity|]. split; [reflexivity|intros y []].
  - unfold wants. cbn [sy_singular sy_repeated locate_syntax fixed_wants fixed_want args68 app int_].
    eapply (D_more _ _ _ _ _ _ _ _ [GValue (CInt 3)]); [apply G_plain; eapply A_value; [apply V_integer|reflexivity]|].
    eapply (D_more _ _ _ _ _ _ _ _ [GValue (CInt 24)]); [apply G_plain; eapply A_value; [apply V_integer|reflexivity]|apply D_none].
  - right. split; [reflexivity|]. eapply Locate_below; [reflexivity|..]; try (split; reflexivity || discriminate).
    exists (u "24"), (u "23"). split; [|split; [|reflexivity]]; (apply numeral68; [discriminate|repeat constructor; discriminate|intros r E; discriminate E|reflexivity]).
Qed.
