(** Console specifications: C75. *)
From Coq Require Import String Permutation Sorted.
From Verif Require Import Base Lex_Spec Storage_Spec Conspec_Model Conspec_Spec Conspec_Proofs.
Local Open Scope string_scope.
Local Open Scope list_scope.
Local Open Scope N_scope.

(** The texts that are resolutions are [fs] and a width and a height, with [fs] after them or not. *)
Theorem C75_resolution : forall s r, parse_resolution s = Ok r <-> resolution_text s r.
Proof. exact resolution_is. Qed.
Print Assumptions C75_resolution.

(** The others fail, and the message says what is wrong. *)
Theorem C75_resolution_error : forall s, (exists r, resolution_text s r) \/ (exists m, parse_resolution s = Err m /\ not_resolution s m).
Proof.
  intros s. destruct (parse_resolution s) as [r|m] eqn:E; [left; exists r; apply resolution_is, E|]. right. exists m. split; [reflexivity|apply resolution_fails, E].
Qed.
Print Assumptions C75_resolution_error.

(** All texts but the empty one specify a driver and flags. *)
Theorem C75_every_text : forall s, s <> [] -> exists d items, specifies s d items.
Proof.
  intros s NE. destruct (split_once 58 s) as [[d rest]|] eqn:SO.
  - apply split_once_is in SO as [-> NI]. destruct (split_joins rest) as (_ & J & H). exists d, (Storage_Model.split_on 44 rest). rewrite <- J at 1. apply (Specifies_flags d); assumption.
  - apply split_once_none in SO. exists s, []. apply Specifies_driver; assumption.
Qed.
Print Assumptions C75_every_text.

(** After any questions, a plain flag is there if it is in the specification and it was not asked
    for; and one with a value has the last that it is given. *)
Theorem C75_flags : forall s d items qs, specifies s d items -> exists c, cspec_init s = Some c /\ cs_driver (fold_left ask qs c) = d /\
  (forall f, fst (take_flag f (fold_left ask qs c)) = true <-> is_given items (Plain f) /\ ~ In (Plain f) qs) /\
  (forall k v, fst (take_keyed_flag_str k (fold_left ask qs c)) = Some v <-> value_given items k v /\ ~ In (Keyed k) qs).
Proof.
  intros s d items qs SP. destruct (init_is _ _ _ SP) as (c & E & D & ST). destruct (asks_stand items qs c ST) as [(F & K & _ & _) D']. exists c. split; [exact E|].
  split; [rewrite D'; exact D|]. split; [|exact K]. intros f. rewrite <- F. cbn [take_flag fst]. rewrite existsb_exists. split.
  - intros (x & I & X). apply ustr_eqb_eq in X. subst x. exact I.
  - intros I. exists f. split; [exact I|apply ustr_eqb_refl].
Qed.
Print Assumptions C75_flags.

(** The end succeeds if all the flags given were asked for, and otherwise lists in order those that
    were not. *)
Theorem C75_finish : forall s d items qs, specifies s d items -> exists c, cspec_init s = Some c /\
  (finish (fold_left ask qs c) = Ok tt /\ (forall q, is_given items q -> In q qs) \/
   exists left l, left <> [] /\ left_over items qs left /\ Permutation l (map name_of left) /\ in_order l /\
     finish (fold_left ask qs c) = Err (u "Console driver " ++ d ++ u " does not recognize flags: " ++ listed l)).
Proof.
  intros s d items qs SP. destruct (init_is _ _ _ SP) as (c & E & D & ST). destruct (asks_stand items qs c ST) as [ST' D']. exists c. split; [exact E|].
  rewrite <- D, <- D'. apply finish_is, ST'.
Qed.
Print Assumptions C75_finish.

(** Values that are to be parsed: the error tells which flag it was, which counts as asked for. *)
Theorem C75_typed : forall V (from_str : ustr -> res ustr V) s d items qs k, specifies s d items -> exists c, cspec_init s = Some c /\
  snd (take_keyed_flag from_str k (fold_left ask qs c)) = fold_left ask (qs ++ [Keyed k]) c /\
  (forall v x, value_given items k v -> ~ In (Keyed k) qs -> from_str v = Ok x -> fst (take_keyed_flag from_str k (fold_left ask qs c)) = Ok (Some x)) /\
  (forall v e, value_given items k v -> ~ In (Keyed k) qs -> from_str v = Err e ->
    fst (take_keyed_flag from_str k (fold_left ask qs c)) = Err (u "Invalid console flag " ++ k ++ u ": " ++ e)) /\
  (~ is_given items (Keyed k) \/ In (Keyed k) qs -> fst (take_keyed_flag from_str k (fold_left ask qs c)) = Ok None).
Proof.
  intros V from_str s d items qs k SP. destruct (C75_flags s d items qs SP) as (c & E & _ & _ & K). exists c. split; [exact E|]. split; [rewrite fold_left_app; reflexivity|].
  specialize (K k). unfold take_keyed_flag. destruct (take_keyed_flag_str k (fold_left ask qs c)) as [o c']. cbn [fst] in *. split; [|split].
  - intros v x G H F. rewrite (proj2 (K v) (conj G H)), F. reflexivity.
  - intros v e G H F. rewrite (proj2 (K v) (conj G H)), F. reflexivity.
  - intros NG. destruct o as [v|]; [|reflexivity]. destruct (proj1 (K v) eq_refl) as [G H]. destruct NG as [NG|NG]; [destruct NG; exists v; exact G|destruct (H NG)].
Qed.
Print Assumptions C75_typed.

(** The empty specification, as in [--console=], is a panic. *)
Theorem C75_empty_refuted : exists s, cspec_init s = None.
Proof. exists []. reflexivity. Qed.
Print Assumptions C75_empty_refuted.

(** ** Cases *)

Example C75_resolution_case : resolution_text (u "+800x600fs") (FullScreen 800 600) /\ not_resolution (u "8x0") (u "Invalid height 0 in resolution 8x0: number would be zero for non-zero type").
Proof.
  split; [apply resolution_is; reflexivity|apply resolution_fails; reflexivity].
Qed.
Example C75_flags_case : specifies (u "sdl:font=a=b,,fs,font=c,wide") (u "sdl") [u "font=a=b"; u ""; u "fs"; u "font=c"; u "wide"] /\
  exists c, cspec_init (u "sdl:font=a=b,,fs,font=c,wide") = Some c /\ fst (take_keyed_flag_str (u "font") c) = Some (u "c") /\
    finish (fold_left ask [Plain (u "font"); Plain (u "none")] c) = Err (u "Console driver sdl does not recognize flags: font, fs, wide") /\
    finish (fold_left ask [Keyed (u "font"); Plain (u "wide"); Plain (u "fs")] c) = Ok tt.
Proof.
  split.
  - apply (Specifies_flags (u "sdl") [u "font=a=b"; u ""; u "fs"; u "font=c"; u "wide"]).
    + vm_compute. intros H. repeat (destruct H as [H|H]; [discriminate H|]). destruct H.
    + intros i I. repeat (destruct I as [<-|I]; [vm_compute; intros H; repeat (destruct H as [H|H]; [discriminate H|]); destruct H|]). destruct I.
  - eexists. split; [vm_compute; reflexivity|]. split; [vm_compute; reflexivity|]. split; vm_compute; reflexivity.
Qed.
