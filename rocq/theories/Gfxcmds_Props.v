(** The graphics commands and functions in programs: C77. *)
From Coq Require Import String.
From Verif Require Import Base Bytecode_Model Mem_Model Num_Model Vm_Model Vm_Spec Ids_Model Ast_Model Syms_Model
  Codegen_Model Exprs_Model Top_Model Incr_Spec Args_Spec Eval_Spec Eval_Props Call_Spec Host_Model Host_Case
  Exec_Spec Program_Proofs User_Spec User_Proofs Exec_Props User_Props Host_Props Cmds_Model Cmds_Spec Cmds_Props
  Input_Model Input_Props Read_Props Lib_Model Lib_Spec Lib_Proofs Lib_Run Gfxcmds_Model Gfxcmds_Spec Gfxcmds_Proofs.
Local Open Scope string_scope.
Local Open Scope list_scope.
Local Open Scope nat_scope.

Definition gfx_names : list ustr :=
  [u "GFX_CIRCLE"; u "GFX_CIRCLEF"; u "GFX_FILL"; u "GFX_HEIGHT"; u "GFX_LINE"; u "GFX_PEEK"; u "GFX_PIXEL"; u "GFX_POLY"; u "GFX_POLYF";
   u "GFX_RECT"; u "GFX_RECTF"; u "GFX_SYNC"; u "GFX_TRI"; u "GFX_TRIF"; u "GFX_WIDTH"].

(** They do what they should, added to any host that does. *)
Theorem C77_gfx_obeys : forall (W : Type) (perform : gfx_op -> W -> W * option ustr) size_pixels peek_pixel img ups shared other others mds,
  host_obeys other img ups others mds shared ->
  host_obeys (lib_host (gfx_provided perform size_pixels peek_pixel) other ups) img ups
    (value_calls (gfx_does perform size_pixels peek_pixel) gfx_names others) (lib_upcalls (gfx_provided perform size_pixels peek_pixel) ++ mds) shared.
Proof. intros * OB. apply (lib_obeys img (gfx_provided perform size_pixels peek_pixel)); [exact OB|apply gfx_provides]. Qed.
Print Assumptions C77_gfx_obeys.

(** Whatever the integers, each of them is performed or refused. *)
Theorem C77_every_call : forall (W : Type) (perform : gfx_op -> W -> W * option ustr) size_pixels peek_pixel (w : W),
  (forall k zs op, shape k zs op -> exists r w', gfx_does perform size_pixels peek_pixel k (ints zs) w r w') /\
  (forall k f x y n, circle k f -> exists r w', gfx_does perform size_pixels peek_pixel k (ints [x; y; n]) w r w') /\
  (exists r w', gfx_does perform size_pixels peek_pixel (u "GFX_SYNC") [] w r w') /\
  (forall b, exists r w', gfx_does perform size_pixels peek_pixel (u "GFX_SYNC") [GValue (CBool b)] w r w').
Proof.
  intros *. assert (PE : forall op w, exists r w', performs perform op w r w' /\ (r = Ok None \/ exists e, r = Err e)).
  { intros op w0. destruct (perform op w0) as [w' e] eqn:P. do 2 eexists. split; [exists e; split; [exact P|reflexivity]|destruct e as [e|]; [right; exists e|left]; reflexivity]. }
  split; [|split; [|split]].
  - intros k zs op S0. destruct (bad_or_good zs) as [F|[msg B]].
    + destruct (PE op w) as (r & w' & P & _). exists r, w'. eapply Does_draw; eassumption.
    + do 2 eexists. eapply Does_refuse; eassumption.
  - intros k f x y n C. destruct (bad_or_good [x; y]) as [F|[msg B]]; [|do 2 eexists; eapply Does_circle_refuse; eassumption].
    inversion F as [|? ? X F']; subst. inversion F' as [|? ? Y _]; subst. destruct (decimal_exists n) as [d D].
    destruct (Z.lt_ge_cases n 0) as [L|L]; [do 2 eexists; eapply Does_radius_negative; eassumption|].
    destruct (Z.lt_ge_cases 65535 n) as [M|M]; [do 2 eexists; eapply Does_radius_large; eassumption|].
    destruct (PE (f (x, y) n) w) as (r & w' & P & _). exists r, w'. eapply Does_circle; try eassumption. split; assumption.
  - destruct (PE SyncNow w) as (r & w' & P & _). exists r, w'. apply Does_sync_now. exact P.
  - intros b. destruct (PE (if b then ShowCursor else HideCursor) w) as (r & w1 & P & [->|[e ->]]).
    + destruct (PE (SetSync b) w1) as (r & w' & Q & _). exists r, w'. eapply Does_sync; eassumption.
    + do 2 eexists. eapply Does_sync_fails. exact P.
Qed.
Print Assumptions C77_every_call.

(** In programs, [a = f(args)] leaves that value in the variable, or fails with that message. *)
Theorem C77_function : forall powf (W : Type) (perform : gfx_op -> W -> W * option ustr) size_pixels peek_pixel upcall others defined n hidden up defs k img x x'
    a p v q args md syn gs r w t c m (s s1 : env W),
  linked up defs upcall k img defined (value_calls (gfx_does perform size_pixels peek_pixel) gfx_names others) ->
  compiled_in up defs k img x [StAssignment a p (ECall v q args)] x' -> stmt_fine (k_syms k) (StAssignment a p (ECall v q args)) ->
  ready (runnable img) (k_syms k) hidden x c m s ->
  get_callable (ls_global (k_syms k)) (ascii_upper (vr_name v)) = Some md -> chosen md (length args) syn ->
  delivers powf (get_callable (ls_global (k_syms k))) (is_variable (k_syms k))
    (linked_calls powf k defined (value_calls (gfx_does perform size_pixels peek_pixel) gfx_names others) (S n)) false s (wants syn args) (Ok gs) s1 ->
  gfx_does perform size_pixels peek_pixel (ascii_upper (vr_name v)) gs (world s1) r w ->
  declared (k_syms k) (ascii_upper (vr_name a)) = Some t ->
  match r with
  | Ok (Some d) => forall d', convert t d = Some (Ok d') ->
      outcome_of powf upcall (runnable img) (k_syms k) hidden x' c m (store (mkEnv (vals s1) w) (ascii_upper (vr_name a)) (Scalar d')) SigNormal
  | Ok None => True
  | Err msg => exists c' m', runs powf upcall (runnable img) c m c' m' /\
      (gives_up powf upcall (runnable img) c' m' \/ fails powf upcall (runnable img) c' m' (XUpcall msg) w)
  end.
Proof. intros * LN CI FI R GC CH DE D T. exact (lib_function powf _ _ _ _ _ _ _ _ _ LN n hidden x x' a p v q args md syn gs r w t c m s s1 CI FI R GC CH DE D T). Qed.
Print Assumptions C77_function.

(** As statements they perform that operation with the values of their arguments, or fail. *)
Theorem C77_statement : forall powf (W : Type) (perform : gfx_op -> W -> W * option ustr) size_pixels peek_pixel upcall others defined n hidden up defs k img x x'
    v p args md syn gs r w c m (s s1 : env W),
  linked up defs upcall k img defined (value_calls (gfx_does perform size_pixels peek_pixel) gfx_names others) ->
  compiled_in up defs k img x [StCall v p args] x' -> stmt_fine (k_syms k) (StCall v p args) ->
  ready (runnable img) (k_syms k) hidden x c m s ->
  get_callable (ls_global (k_syms k)) (ascii_upper (vr_name v)) = Some md -> chosen md (length args) syn ->
  delivers powf (get_callable (ls_global (k_syms k))) (is_variable (k_syms k))
    (linked_calls powf k defined (value_calls (gfx_does perform size_pixels peek_pixel) gfx_names others) (S n)) true s (wants syn args) (Ok gs) s1 ->
  gfx_does perform size_pixels peek_pixel (ascii_upper (vr_name v)) gs (world s1) r w ->
  match r with
  | Ok None => outcome_of powf upcall (runnable img) (k_syms k) hidden x' c m (mkEnv (vals s1) w) SigNormal
  | Ok (Some _) => True
  | Err msg => exists c' m', runs powf upcall (runnable img) c m c' m' /\
      (gives_up powf upcall (runnable img) c' m' \/ fails powf upcall (runnable img) c' m' (XUpcall msg) w)
  end.
Proof.
  intros * LN CI FI R GC CH DE D. assert (OV : only_values gs) by (destruct (gfx_provides _ _ _ _ _ _ _ _ D) as [OV _]; exact OV).
  exact (lib_statement powf _ _ _ _ _ _ _ _ _ LN n hidden x x' v p args md syn gs r w c m s s1 CI FI R GC CH DE OV D).
Qed.
Print Assumptions C77_statement.

(** The console is changed with operations that fit only, whatever the arguments. *)
Theorem C77_in_range : forall (W : Type) (perform : gfx_op -> W -> W * option ustr) size_pixels peek_pixel k gs w r w',
  gfx_does perform size_pixels peek_pixel k gs w r w' -> only_drawn perform w w'.
Proof. exact @in_range. Qed.
Print Assumptions C77_in_range.

(** The functions change nothing, and neither does a call with an integer out of range among its
    coordinates or as its radius. *)
Theorem C77_unchanged : forall (W : Type) (perform : gfx_op -> W -> W * option ustr) size_pixels peek_pixel k gs w r w',
  gfx_does perform size_pixels peek_pixel k gs w r w' ->
  (k = u "GFX_WIDTH" \/ k = u "GFX_HEIGHT" \/ k = u "GFX_PEEK" -> w' = w) /\
  (forall zs z, gs = ints zs -> In z zs -> ~ coordinate z -> (k <> u "GFX_CIRCLE" /\ k <> u "GFX_CIRCLEF") \/ (z < 0 \/ 65535 < z)%Z -> w' = w).
Proof. exact @unchanged. Qed.
Print Assumptions C77_unchanged.

(** ** Cases *)

(** A console that remembers what it was asked for. *)
Definition perform77 (op : gfx_op) (w : list gfx_op) : list gfx_op * option ustr := (w ++ [op], None).
Definition size77 (w : list gfx_op) : res ustr (N * N) := Ok (640, 480)%N.
Definition peek77 (p : Z * Z) (w : list gfx_op) : res ustr (option N) := Ok (Some 7%N).
Definition provided77 := gfx_provided perform77 size77 peek77.
Definition screen77 (ups : list ustr) := lib_host provided77 no_host ups.
Fixpoint ints_ (zs : list Z) : list (option expr * argsep * linecol) :=
  match zs with [] => [] | [z] => [(Some (int_ z), SepEnd, at_)] | z :: r => (Some (int_ z), SepLong, at_) :: ints_ r end.
(** Here is
<<
GFX_SYNC FALSE
w = GFX_WIDTH
GFX_LINE 0, 0, w - 1, -5
GFX_POLY 1, 2, 3, 4, 5, 6
GFX_CIRCLE 1, -32768, 65535
GFX_SYNC
n = GFX_PEEK(2, 3)
GFX_CIRCLEF n, 2, -1
>>
    which fails after drawing. *)
Definition p77 : list stmt :=
  [StCall (v_ "gfx_sync") at_ [(Some (EBoolean false at_), SepEnd, at_)];
   set_ "w" (var_ "gfx_width");
   StCall (v_ "gfx_line") at_ [(Some (int_ 0), SepLong, at_); (Some (int_ 0), SepLong, at_); (Some (bin_ BSubtract (var_ "w") (int_ 1)), SepLong, at_);
     (Some (int_ (-5)), SepEnd, at_)];
   StCall (v_ "gfx_poly") at_ (ints_ [1; 2; 3; 4; 5; 6]%Z);
   StCall (v_ "gfx_circle") at_ (ints_ [1; -32768; 65535]%Z);
   StCall (v_ "gfx_sync") at_ [];
   set_ "n" (ECall (v_ "gfx_peek") at_ (ints_ [2; 3]%Z));
   StCall (v_ "gfx_circlef") at_ [(Some (var_ "n"), SepLong, at_); (Some (int_ 2), SepLong, at_); (Some (int_ (-1)), SepEnd, at_)]].
Definition drawn77 : list gfx_op :=
  ([HideCursor; SetSync false; DrawLine (0, 0) (639, -5); DrawPoly [(1, 2); (3, 4); (5, 6)]; DrawCircle (1, -32768) 65535; SyncNow])%Z.
Example C77_machine_case : exists img, compile_new (lib_upcalls provided77) [] (p77, None) = (Compiled, img) /\
  forall powf, exists c m, runs powf (screen77 (ci_upcalls img)) (runnable img) (ctx_new 100) (mkMem (heap_new 10000) []) c m /\
    fails powf (screen77 (ci_upcalls img)) (runnable img) c m (XUpcall (u "Radius -1 must be positive")) drawn77.
Proof.
  eexists. split; [vm_compute; reflexivity|]. intros powf. do 2 eexists. split; [talk_|].
  eapply fails_by; [left; vm_compute; reflexivity|vm_compute; reflexivity|vm_compute; reflexivity|vm_compute; reflexivity|vm_compute; reflexivity].
Qed.
Example C77_refuse_case : gfx_does perform77 size77 peek77 (u "GFX_TRI") (ints [1; 2; 3; -32769; 70000; 6]%Z) drawn77 (Err (u "Coordinate -32769 out of range")) drawn77.
Proof.
  eapply (Does_refuse _ _ _ (u "GFX_TRI") [1; 2; 3; -32769; 70000; 6]%Z); [apply (Shape_tri (1, 2) (3, -32769) (70000, 6))%Z|].
  exists [1; 2; 3]%Z, (-32769)%Z, [70000; 6]%Z, (u "-32769"). split; [reflexivity|]. split; [repeat apply Forall_cons; [..|apply Forall_nil]; split; discriminate|].
  split; [intros [A _]; apply A; reflexivity|]. split; [|reflexivity]. destruct (decimal_exists (-32769)) as [d D].
  rewrite <- (to_string_decimal _ _ D) in D. exact D.
Qed.

Example C77_in_range_case : only_drawn perform77 [] drawn77 /\ op_fits (DrawCircle (1, -32768) 65535)%Z /\ ~ op_fits (DrawPixel (32768, 0))%Z.
Proof.
  split; [|split; [repeat split; discriminate|intros [[_ A] _]; apply A; reflexivity]].
  unfold drawn77. eapply (Drawn_op _ HideCursor); [exact Logic.I|reflexivity|]. eapply (Drawn_op _ (SetSync false)); [exact Logic.I|reflexivity|].
  eapply (Drawn_op _ (DrawLine (0, 0) (639, -5))%Z); [repeat split; discriminate|reflexivity|].
  eapply (Drawn_op _ (DrawPoly [(1, 2); (3, 4); (5, 6)])%Z); [intros p [<-|[<-|[<-|[]]]]; repeat split; discriminate|reflexivity|].
  eapply (Drawn_op _ (DrawCircle (1, -32768) 65535)%Z); [repeat split; discriminate|reflexivity|].
  eapply (Drawn_op _ SyncNow); [exact Logic.I|reflexivity|]. apply Drawn_nothing.
Qed.

(** [x = GFX_PEEK(2, 3)] through [C77_function], and [GFX_PIXEL 3, -4] through [C77_statement]. *)
Definition upcalls77 : list (ustr * callable_md) := lib_upcalls provided77.
Definition calls77 := value_calls (gfx_does perform77 size77 peek77) gfx_names (@no_calls (list gfx_op)).
Definition k77 : compiler := match compiler_new upcalls77 [] with COk k => k | _ => mkCompiler tctx_new (enter_scope (gs_new [])) end.
Definition x77 : sst := (set_gen (pop_eof (t_gen (k_ctx k77))) (k_ctx k77), k_syms k77).
Definition y77 (p : list stmt) : sst := match compile_stmts p x77 with COk x => x | _ => x77 end.
Definition k77' (p : list stmt) : compiler := snd (fst (compile_more k77 cimage_default (p, None))).
Definition img77 (p : list stmt) : cimage := snd (compile_more k77 cimage_default (p, None)).
Lemma gfx_named k gs w r w' : gfx_does perform77 size77 peek77 k gs w r w' -> assoc upcalls77 k <> None.
Proof.
  intros H. destruct H as [? ? ? ? ? ? S0 _ _|? ? ? ? ? S0 _|? ? ? K _ _|? ? ? ? ? ? ? ? C _ _ _ _|? ? ? ? ? ? ? C _|? ? ? ? ? ? ? C _ _ _ _|? ? ? ? ? ? ? C _ _ _ _
    | | | | | |? ? ? K _| | | | ]; try destruct S0; try destruct C; try (destruct K as [->| ->]); vm_compute; discriminate.
Qed.
Lemma hosted77 p locals : gs_user (ls_global (k_syms (k77' p))) = [] -> gs_upcalls (ls_global (k_syms (k77' p))) = upcalls77 ->
  gs_vars (ls_global (k_syms (k77' p))) = [] -> ls_locals (k_syms (k77' p)) = locals -> (locals = [] \/ locals = [(u "X", (PScalar TInteger, 0%N))]) ->
  hosted (screen77 (ci_upcalls (img77 p))) (k77' p) (img77 p) calls77.
Proof.
  intros GU GP GV GL LC. split.
  - intros k. right. rewrite GV. reflexivity.
  - split.
    + intros k md. rewrite GU. discriminate.
    + intros k md. rewrite GP. unfold upcalls77, provided77, lib_upcalls, gfx_provided, gfx_command. cbn [map pv_name pv_md assoc].
      repeat match goal with |- context [ustr_eqb ?a k] => destruct (ustr_eqb a k); [intros E; injection E as <-; reflexivity|] end. discriminate.
    + intros k md _. rewrite GV. reflexivity.
    + intros k md t n i _. rewrite GL. destruct LC as [->| ->]; [discriminate|]. unfold id_get. cbn [find fst snd]. destruct (ustr_eqb (u "X") k); discriminate.
  - rewrite GP. unfold upcalls77. rewrite <- (app_nil_r (lib_upcalls _)). apply C77_gfx_obeys. split; try (intros; contradiction). reflexivity.
  - intros k gs s r s'. rewrite GP. intros [k0 gs0 s0 r0 w0 D|? ? ? ? ? _ []]. eapply gfx_named. exact D.
Qed.
Definition set77 : stmt := StAssignment (v_ "x") at_ (ECall (v_ "gfx_peek") at_ (ints_ [2; 3]%Z)).
Lemma compiled77 : compiled_in upcalls77 [] (k77' [set77]) (img77 [set77]) x77 [set77] (y77 [set77]).
Proof.
  eapply (compiled_now upcalls77 [] [] k77 cimage_default [] [set77] []); [apply session_start; reflexivity| |reflexivity|]; vm_compute; reflexivity.
Qed.
Lemma fine77 : stmt_fine (k_syms (k77' [set77])) set77.
Proof. intros e o O. inversion O; subst. split; [vm_compute; repeat split; try exact Logic.I; discriminate|]. intros v E. injection E as <-. split; [intros w p L0; discriminate L0|]. left. vm_compute. reflexivity. Qed.
Lemma hosted77_set : hosted (screen77 (ci_upcalls (img77 [set77]))) (k77' [set77]) (img77 [set77]) calls77.
Proof.
  apply hosted77 with (locals := [(u "X", (PScalar TInteger, 0%N))]);
    [vm_compute; reflexivity|vm_compute; reflexivity|vm_compute; reflexivity|vm_compute; reflexivity|right; reflexivity].
Qed.
Example C77_function_case : forall powf, exists s', vals s' (u "X") = Some (Scalar (CInt 7)) /\ world s' = [] /\
  outcome_of powf (screen77 (ci_upcalls (img77 [set77]))) (runnable (img77 [set77])) (k_syms (k77' [set77])) (fun _ => None) (y77 [set77])
    (ctx_new 100) (mkMem (heap_new 10000) []) s' SigNormal.
Proof.
  intros powf. exists (store (mkEnv (fun _ => None) []) (u "X") (Scalar (CInt 7))). split; [reflexivity|]. split; [reflexivity|].
  refine (C77_function powf (list gfx_op) perform77 size77 peek77 _ no_calls (fun _ _ => False) 0 (fun _ => None) upcalls77 [] (k77' [set77]) (img77 [set77]) x77 (y77 [set77])
    (v_ "x") at_ (v_ "gfx_peek") at_ (ints_ [2; 3]%Z) (mkMd (u "GFX_PEEK") (Some TInteger) false xy_syntax false)
    (mkSyntax [int_arg "x" then_; int_arg "y" SepEndOnly] None) (ints [2; 3]%Z) (Ok (Some (CInt 7))) [] TInteger _ _ (mkEnv (fun _ => None) []) (mkEnv (fun _ => None) [])
    (linked_nothing _ _ _ _ _ _ hosted77_set) compiled77 fine77 _ _ _ _ _ _ _ eq_refl).
  - split; [reflexivity|]. apply new_holds. reflexivity.
  - vm_compute. reflexivity.
  - exists [], []. split; [reflexivity|]. split; [reflexivity|intros y []].
  - unfold wants. cbn [sy_singular sy_repeated fixed_wants fixed_want app int_arg ints_].
    eapply (D_more _ _ _ _ _ _ _ _ [GValue (CInt 2)]); [apply G_plain; eapply A_value; [apply V_integer|reflexivity]|].
    eapply (D_more _ _ _ _ _ _ _ _ [GValue (CInt 3)]); [apply G_plain; eapply A_value; [apply V_integer|reflexivity]|apply D_none].
  - apply (Does_peek _ _ _ 2 3 7); try (split; discriminate); reflexivity.
  - vm_compute. reflexivity.
Qed.
Definition st77 : stmt := StCall (v_ "gfx_pixel") at_ (ints_ [3; -4]%Z).
Lemma compiled77' : compiled_in upcalls77 [] (k77' [st77]) (img77 [st77]) x77 [st77] (y77 [st77]).
Proof.
  eapply (compiled_now upcalls77 [] [] k77 cimage_default [] [st77] []); [apply session_start; reflexivity| |reflexivity|]; vm_compute; reflexivity.
Qed.
Lemma fine77' : stmt_fine (k_syms (k77' [st77])) st77.
Proof.
  intros e o O. inversion O; subst.
  match goal with H : In _ _ |- _ => destruct H as [H|[H|[]]]; injection H as <- <- end;
    (split; [vm_compute; repeat split; try exact Logic.I; discriminate|]; intros v E; discriminate E).
Qed.
Lemma hosted77_st : hosted (screen77 (ci_upcalls (img77 [st77]))) (k77' [st77]) (img77 [st77]) calls77.
Proof. apply hosted77 with (locals := []); [vm_compute; reflexivity|vm_compute; reflexivity|vm_compute; reflexivity|vm_compute; reflexivity|left; reflexivity]. Qed.
Example C77_statement_case : forall powf,
  outcome_of powf (screen77 (ci_upcalls (img77 [st77]))) (runnable (img77 [st77])) (k_syms (k77' [st77])) (fun _ => None) (y77 [st77])
    (ctx_new 100) (mkMem (heap_new 10000) []) (mkEnv (fun _ => None) [DrawPixel (3, -4)%Z]) SigNormal.
Proof.
  intros powf.
  refine (C77_statement powf (list gfx_op) perform77 size77 peek77 _ no_calls (fun _ _ => False) 0 (fun _ => None) upcalls77 [] (k77' [st77]) (img77 [st77]) x77 (y77 [st77])
    (v_ "gfx_pixel") at_ (ints_ [3; -4]%Z) (mkMd (u "GFX_PIXEL") None false xy_syntax false) (mkSyntax [int_arg "x" then_; int_arg "y" SepEndOnly] None)
    (ints [3; -4]%Z) (Ok None) _ _ _ (mkEnv (fun _ => None) []) (mkEnv (fun _ => None) [])
    (linked_nothing _ _ _ _ _ _ hosted77_st) compiled77' fine77' _ _ _ _ _).
  - split; [reflexivity|]. apply new_holds. reflexivity.
  - vm_compute. reflexivity.
  - exists [], []. split; [reflexivity|]. split; [reflexivity|intros y []].
  - unfold wants. cbn [sy_singular sy_repeated fixed_wants fixed_want app int_arg ints_].
    eapply (D_more _ _ _ _ _ _ _ _ [GValue (CInt 3)]); [apply G_plain; eapply A_value; [apply V_integer|reflexivity]|].
    eapply (D_more _ _ _ _ _ _ _ _ [GValue (CInt (-4))]); [apply G_plain; eapply A_value; [apply V_integer|reflexivity]|apply D_none].
  - apply (Does_draw _ _ _ (u "GFX_PIXEL") [3; -4]%Z (DrawPixel (3, -4)%Z)); [apply (Shape_pixel (3, -4)%Z)| |exists None; split; reflexivity].
    repeat apply Forall_cons; [..|apply Forall_nil]; split; discriminate.
Qed.
