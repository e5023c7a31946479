(** The stored program: C50. *)
From Coq Require Import String.
From Verif Require Import Base Text_Model Text_Proofs Storage_Model Storage_Spec Storage_Proofs Storage_Props
  Readline_Model Editor_Model Editor_Spec Editor_Props Repl_Model Repl_Spec Repl_Proofs.
Local Open Scope string_scope.
Local Open Scope N_scope.
Local Open Scope list_scope.

(** Only these answers agree, in any case; no answer at all does not. *)
Theorem C50_answers uc a : upper_ok uc -> (forall c, In c a -> c < 128) ->
  (says_yes uc a <-> In (map lower1 a) [u "y"; u "yes"; u "true"]).
Proof. exact (answers_ascii uc a). Qed.
Print Assumptions C50_answers.

(** NEW. *)
Theorem C50_new uc o : exists o' r, new_command uc o = Some (o', r) /\ o_storage o' = o_storage o /\
  ((consents uc o o' /\ r = Ok tt /\ Editor_Model.text (o_program o') = [] /\ e_name (o_program o') = None /\
    e_dirty (o_program o') = false /\ o_actions o' = o_actions o ++ [AClear]) \/
   (refuses uc o /\ o_program o' = o_program o /\ o_actions o' = o_actions o /\
    exists m, o_output o' = o_output o ++ question o ++ m)).
Proof.
  unfold new_command. destruct (continue_if_modified uc o) as [o1 go] eqn:C. destruct (cim_cases uc o o1 go C) as (P & S & A & _ & _ & D).
  destruct go as [[|]|e]; do 2 eexists; (split; [reflexivity|]); (split; [exact S|]).
  - left. split; [exact D|]. repeat split. cbn [push with_program o_actions]. congruence.
  - right. destruct D as (D1 & D2 & D3). split; [exact D3|]. split; [exact P|]. split; [exact A|]. eexists.
    cbn [say o_output]. rewrite D2, <- app_assoc. reflexivity.
  - right. destruct D as (D1 & D2 & D3). split; [exact D3|]. split; [exact P|]. split; [exact A|]. exists []. rewrite app_nil_r. exact D2.
Qed.
Print Assumptions C50_new.

(** LOAD: only a file that is there and is text replaces the program, and only with consent. *)
Theorem C50_load uc p o o' r : load_command uc p o = Some (o', r) -> o_storage o' = o_storage o /\
  ((consents uc o o' /\ r = Ok tt /\ (exists full t,
      make_canonical_with_extension uc (o_storage o) p (u "bas") = Ok full /\
      get uc full (o_storage o) = Some (Ok (collect t)) /\ Text_Proofs.text t /\
      Editor_Model.text (o_program o') = unix_text t /\ e_name (o_program o') = Some full) /\
    e_dirty (o_program o') = false /\ o_actions o' = o_actions o ++ [AClear]) \/
   (o_program o' = o_program o /\ o_actions o' = o_actions o /\
    ((refuses uc o /\ exists m, o_output o' = o_output o ++ question o ++ m) \/ (exists e, r = Err e /\ consents uc o o')))).
Proof.
  unfold load_command. destruct (continue_if_modified uc o) as [o1 go] eqn:C. destruct (cim_cases uc o o1 go C) as (P & S & A & _ & _ & D).
  destruct go as [[|]|e].
  - rewrite S. destruct (make_canonical_with_extension _ _ _ _) as [full|e] eqn:M; [|intros H; injection H as <- <-; eauto 12].
    destruct (get uc full (o_storage o)) as [[b|e]|] eqn:G; [|intros H; injection H as <- <-; eauto 12|discriminate].
    destruct (from_utf8 b) as [t|] eqn:F; [|intros H; injection H as <- <-; eauto 12]. intros H. injection H as <- <-.
    apply from_utf8_some in F as [T ->]. split; [exact S|]. left. split; [exact D|]. split; [reflexivity|].
    split; [|split; [reflexivity|cbn [push with_program o_actions]; congruence]]. exists full, t. split; [reflexivity|]. split; [exact G|]. split; [exact T|].
    destruct (C42_load (Some full) t (o_program o1)) as (L1 & L2 & _). split; assumption.
  - intros H. injection H as <- <-. destruct D as (D1 & D2 & D3). split; [exact S|]. right. split; [exact P|]. split; [exact A|]. left. split; [exact D3|].
    eexists. cbn [say o_output]. rewrite D2, <- app_assoc. reflexivity.
  - intros H. injection H as <- <-. destruct D as (D1 & D2 & D3). split; [exact S|]. right. split; [exact P|]. split; [exact A|]. left. split; [exact D3|].
    exists []. rewrite app_nil_r. exact D2.
Qed.
Print Assumptions C50_load.

(** Nothing asks about a program without changes, and asking an agreeing user is enough. *)
Theorem C50_load_done uc p o full t : ~ refuses uc o ->
  make_canonical_with_extension uc (o_storage o) p (u "bas") = Ok full ->
  get uc full (o_storage o) = Some (Ok (collect t)) -> Text_Proofs.text t ->
  exists o', load_command uc p o = Some (o', Ok tt) /\ Editor_Model.text (o_program o') = unix_text t /\ e_name (o_program o') = Some full.
Proof.
  intros NR M G T. unfold load_command. destruct (continue_if_modified uc o) as [o1 go] eqn:C.
  destruct (cim_cases uc o o1 go C) as (P & S & A & _ & _ & D).
  destruct go as [[|]|e]; [|exfalso; apply NR; apply D|exfalso; apply NR; apply D].
  rewrite S. change default_extension with (u "bas"). rewrite M, G, (proj2 (from_utf8_some _ t) (conj T eq_refl)). eexists. split; [reflexivity|].
  destruct (C42_load (Some full) t (o_program o1)) as (L1 & L2 & _). split; assumption.
Qed.
Print Assumptions C50_load_done.

(** SAVE: the program has no changes only after a file with its text is in the storage. *)
Theorem C50_save uc lc n o o' r : upper_ok uc -> reachable uc lc (o_storage o) -> save_command uc n o = Some (o', r) ->
  (r = Ok tt /\ exists full k f, names_file uc (o_storage o) full k f /\
     get uc full (o_storage o') = Some (Ok (collect (Editor_Model.text (o_program o)))) /\
     (forall other, elsewhere uc (o_storage o) other k f -> get uc other (o_storage o') = get uc other (o_storage o)) /\
     e_content (o_program o') = e_content (o_program o) /\ e_name (o_program o') = Some full /\ e_dirty (o_program o') = false) \/
  (exists e, r = Err e /\ o' = o).
Proof.
  intros U R H. unfold save_command in H. destruct (match n with Some name => Some name | None => e_name (o_program o) end) as [name|]; [|injection H as <- <-; eauto].
  destruct (make_canonical_with_extension _ _ _ _) as [full|e] eqn:M; [|injection H as <- <-; eauto].
  destruct (put uc full _ (o_storage o)) as [[st|e]|] eqn:P; [|injection H as <- <-; eauto|discriminate]. injection H as <- <-.
  destruct (full_name_names uc lc _ _ _ U R M) as (k & f & NF & _). left. split; [reflexivity|]. exists full, k, f.
  destruct (C35_put uc lc _ _ _ _ _ _ R NF P) as [G1 G2]. split; [exact NF|]. split; [exact G1|]. split; [exact G2|]. repeat split.
Qed.
Print Assumptions C50_save.

(** Saving a program and loading the file gives its text again, and nothing is asked. *)
Theorem C50_save_load uc lc n o o1 : upper_ok uc -> reachable uc lc (o_storage o) ->
  Text_Proofs.text (Editor_Model.text (o_program o)) -> save_command uc n o = Some (o1, Ok tt) ->
  exists full o2, e_name (o_program o1) = Some full /\ load_command uc full o1 = Some (o2, Ok tt) /\
    o_input o2 = o_input o /\ Editor_Model.text (o_program o2) = unix_text (Editor_Model.text (o_program o)).
Proof. exact (save_load uc lc n o o1). Qed.
Print Assumptions C50_save_load.

(** What one command can do to a program with changes: nothing, an edit, a save that worked, or its
    replacement by NEW or LOAD after the user was asked and agreed. *)
Theorem C50_each_command uc lc c o r o' : upper_ok uc -> reachable uc lc (o_storage o) ->
  step uc lc c o r o' -> e_dirty (o_program o) = true ->
  o_program o' = o_program o \/
  (exists w h keys, c = CEdit w h keys /\ edit_program w h keys (o_program o) = Some (o_program o') /\
     e_dirty (o_program o') = true /\ e_name (o_program o') = e_name (o_program o)) \/
  (exists n, c = CSave n /\ r = Ok tt /\ saved uc (o_program o) (o_storage o') /\
     Editor_Model.text (o_program o') = Editor_Model.text (o_program o)) \/
  ((c = CNew \/ exists p, c = CLoad p) /\ o_output o' = o_output o ++ question o /\
   exists a, says_yes uc a /\ o_input o = Ok a :: o_input o').
Proof. exact (each_command uc lc c o r o'). Qed.
Print Assumptions C50_each_command.

(** A program with changes is not lost, whatever commands follow, as long as the user agrees to
    nothing: it is still there, with the edits since then, or its text with the edits went to a file. *)
Theorem C50_never_lost uc lc cs o o' : upper_ok uc -> reachable uc lc (o_storage o) ->
  steps uc lc cs o o' -> e_dirty (o_program o) = true -> no_consent uc o o' ->
  (edited (o_program o) (o_program o') /\ e_dirty (o_program o') = true) \/
  (exists cs1 n cs2 o1 o2, cs = cs1 ++ CSave n :: cs2 /\ steps uc lc cs1 o o1 /\ step uc lc (CSave n) o1 (Ok tt) o2 /\
     steps uc lc cs2 o2 o' /\ edited (o_program o) (o_program o1) /\ saved uc (o_program o1) (o_storage o2)).
Proof. exact (never_lost uc lc cs o o'). Qed.
Print Assumptions C50_never_lost.

(** The loop: for any machine whose lines run commands, a session is such a list of commands, and so
    the program is not lost while it runs. *)
Theorem C50_session uc lc machine n o o' s :
  (forall line o o' out, machine line o = Some (o', out) -> exists cs, steps uc lc cs o o') ->
  run_repl_loop uc machine n o = Some (o', s) -> exists cs, steps uc lc cs o o'.
Proof. exact (session uc lc machine n o o' s). Qed.
Print Assumptions C50_session.

(** The loop stops with a program with changes only if the user was asked and agreed, or if reading
    the prompt's line failed; and it returns an error only if reading the answer failed. *)
Theorem C50_leaving uc machine n o o' s : run_repl_loop uc machine n o = Some (o', s) -> e_dirty (o_program o') = true ->
  match s with
  | Running => True
  | Stopped code =>
      (exists o1, o_program o1 = o_program o' /\ o_output o' = o_output o1 ++ question o1 /\
         exists a, says_yes uc a /\ o_input o1 = Ok a :: o_input o') \/
      (exists o1, o_program o1 = o_program o' /\
         ((code = 0%Z /\ (o_input o1 = [] \/ o_input o1 = Err UnexpectedEof :: o_input o')) \/
          (code = 1%Z /\ o_input o1 = Err OtherLineError :: o_input o')))
  | Failed e =>
      exists o1, o_program o1 = o_program o' /\ o_output o' = o_output o1 ++ question o1 /\
        (o_input o1 = Err e :: o_input o' \/ (o_input o1 = [] /\ e = UnexpectedEof))
  end.
Proof. exact (leaving uc machine n o o' s). Qed.
Print Assumptions C50_leaving.

(** The commands do not panic. *)
Theorem C50_never_panics uc lc o : upper_ok uc -> ready uc lc o ->
  (exists o' r, new_command uc o = Some (o', r) /\ ready uc lc o') /\
  (forall p, exists o' r, load_command uc p o = Some (o', r) /\ ready uc lc o') /\
  (forall n, exists o' r, save_command uc n o = Some (o', r) /\ ready uc lc o') /\
  (forall w h keys, (1 <= w)%nat -> (2 <= h)%nat -> exists o' r, edit_command w h keys o = Some (o', r) /\ ready uc lc o').
Proof. exact (never_panics uc lc o). Qed.
Print Assumptions C50_never_panics.

(** A program that was loaded, edited and then threatened by LOAD, NEW and END. *)
Definition o50 : host :=
  let st := match put uc_ (u "MEMORY:a.bas") (collect (u "PRINT 1")) storage_default with Some (Ok st) => st | _ => storage_default end in
  mkHost editor_default st true [Ok (u "no"); Err Interrupted; Ok []; Ok (u "Yes")] [] [].
Definition after (r : result) : host := match r with Some (o, _) => o | None => o50 end.
Definition changed50 : host := after (edit_command 80 25 [KChar 39] (after (load_command uc_ (u "a") o50))).
Example C50_case :
  Editor_Model.text (o_program changed50) = u "'PRINT 1" ++ [10] /\ e_dirty (o_program changed50) = true /\
  e_name (o_program changed50) = Some (u "MEMORY:a.bas") /\
  let o1 := after (new_command uc_ changed50) in
  let o2 := after (new_command uc_ o1) in
  let o3 := after (load_command uc_ (u "a") o2) in
  o_program o1 = o_program changed50 /\ o_program o2 = o_program changed50 /\ o_program o3 = o_program changed50 /\
  Editor_Model.text (o_program (after (new_command uc_ o3))) = [] /\
  o_output (after (new_command uc_ changed50)) =
    [u "Current program MEMORY:a.bas has unsaved changes!"; u "Discard and continue (y/N)? ";
     u "NEW aborted; use SAVE to save your current changes."] /\
  get uc_ (u "MEMORY:B.BAS") (o_storage (after (save_command uc_ (Some (u "B")) o3))) = Some (Ok (collect (u "'PRINT 1" ++ [10]))).
Proof. vm_compute. repeat split. Qed.
Example C50_session_case : forall machine, machine = (fun _ o => Some (o, OExit 7)) ->
  let o := mkHost (o_program changed50) (o_storage changed50) false [Ok (u "END 7"); Ok (u "n"); Ok (u "END 7"); Ok (u "y")] [] [] in
  exists o', run_repl_loop uc_ machine 5 o = Some (o', Stopped 7) /\ o_input o' = [] /\
    In (u "Exit aborted; resuming REPL loop.") (o_output o').
Proof. intros machine ->. cbv zeta. eexists. split; [vm_compute; reflexivity|]. split; [reflexivity|]. vm_compute. auto. Qed.

(** Finding: the end of the input at the prompt leaves with changes that were never asked about. *)
Theorem C50_end_of_input_refuted : exists o, e_dirty (o_program o) = true /\ forall uc machine,
  exists o', run_repl_loop uc machine 1 o = Some (o', Stopped 0) /\ o_program o' = o_program o /\
    forall l, In l (o_output o') -> ~ In l (question o).
Proof.
  exists (mkHost (o_program changed50) (o_storage changed50) true [Err UnexpectedEof] [] []). split; [reflexivity|]. intros uc machine.
  eexists. split; [reflexivity|]. split; [reflexivity|]. intros l I J. vm_compute in J. vm_compute in I.
  repeat (destruct I as [<-|I]; [repeat (destruct J as [J|J]; [discriminate J|]); destruct J|]). destruct I.
Qed.
Print Assumptions C50_end_of_input_refuted.

(** Finding: interrupting the question before leaving is not an answer: the loop fails. *)
Theorem C50_interrupted_question_refuted : exists machine o o', e_dirty (o_program o) = true /\
  (forall line o, machine line o = Some (o, OExit 0)) /\ (forall a, ~ In (Ok a) (tl (o_input o))) /\
  run_repl_loop uc_ machine 5 o = Some (o', Failed Interrupted) /\ e_dirty (o_program o') = true.
Proof.
  exists (fun _ o => Some (o, OExit 0)), (mkHost (o_program changed50) (o_storage changed50) true [Ok (u "END"); Err Interrupted; Err Interrupted] [] []).
  eexists. split; [reflexivity|]. split; [reflexivity|]. split.
  - intros a [I|[I|[]]]; discriminate I.
  - split; [vm_compute; reflexivity|reflexivity].
Qed.
Print Assumptions C50_interrupted_question_refuted.
