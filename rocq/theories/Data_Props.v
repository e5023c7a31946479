(** C28: DATA, READ and RESTORE. *)
From Coq Require Import String.
From Verif Require Import Base Bytecode_Model Mem_Model Num_Model Data_Model Data_Spec.
Local Open Scope nat_scope.

Lemma assign_accepts arg t d :
  match assign_datum arg t d with
  | Ok v => accepts_value t d v
  | Err e => forall v, ~ accepts_value t d v
  end.
Proof.
  destruct t, d; cbn [assign_datum];
    lazymatch goal with
    | |- forall _, _ => intros v [H _]; cbn [cdatum_etype] in H; discriminate H
    | |- match double_to_integer _ with _ => _ end => idtac
    | |- context [double_to_integer] => idtac
    | |- context [f64_of_i32] => exact eq_refl
    | |- _ => cbn [accepts_value cdatum_etype]; split; reflexivity
    end.
  destruct (double_to_integer bits) as [i|] eqn:E; cbn [accepts_value].
  - exists i. split; [exact E|exact eq_refl].
  - intros v (j & H & _). rewrite E in H. discriminate H.
Qed.

Lemma skipn_nth {A} (l : list A) i x : nth_error l i = Some x -> skipn i l = x :: skipn (S i) l.
Proof.
  revert i; induction l as [|y l IH]; intros [|i] H; try discriminate; cbn in *.
  - congruence.
  - apply IH. exact H.
Qed.

Lemma read_loop_reads data ts : forall arg index,
  let '(vs, i, e) := read_loop data arg index ts in
  reads (skipn index data) ts vs (skipn i data) (match e with None => true | Some _ => false end) /\
  index <= i.
Proof.
  induction ts as [|t ts IH]; intros arg index; cbn [read_loop].
  - split; [constructor|auto].
  - destruct (nth_error data index) as [od|] eqn:E.
    + rewrite (skipn_nth _ _ _ E). destruct od as [d|].
      * pose proof (assign_accepts arg t d) as A. destruct (assign_datum arg t d) as [v|e].
        -- specialize (IH (S arg) (S index)). destruct (read_loop data (S arg) (S index) ts) as [[vs i] e].
           destruct IH as [R L]. split; [constructor; assumption|lia].
        -- split; [constructor; exact A|lia].
      * pose proof (assign_accepts arg t (default_datum t)) as A.
        destruct (assign_datum arg t (default_datum t)) as [v|e].
        -- specialize (IH (S arg) (S index)). destruct (read_loop data (S arg) (S index) ts) as [[vs i] e].
           destruct IH as [R L]. split; [constructor; [|assumption]|lia].
           destruct t; cbn [default_datum accepts_value cdatum_etype] in A; unfold default_value; tauto.
        -- exfalso. destruct t; cbn [default_datum accepts_value cdatum_etype] in A; eapply A; split; reflexivity.
    + apply nth_error_None in E. rewrite skipn_all2 by exact E. split; [constructor|auto].
Qed.

(** Executing any sequence of READ and RESTORE gives what the user sees in the history that
    consumes values one by one. *)
Theorem C28_history : forall data ops,
  let (index, out) := exec_ops data 0 ops in history data ops (skipn index data) out.
Proof.
  intros data ops.
  assert (G : forall ops pre index out0, history data pre (skipn index data) out0 ->
     let (i, out) := exec_ops data index ops in history data (pre ++ ops) (skipn i data) (out0 ++ out)).
  { clear ops. induction ops as [|[ts|] ops IH]; intros pre index out0 H; cbn [exec_ops].
    - rewrite !app_nil_r. exact H.
    - unfold exec_read. pose proof (read_loop_reads data ts 0 index) as R.
      destruct (read_loop data 0 index ts) as [[vs i1] e]. destruct R as [R _].
      pose proof (IH (pre ++ [OpRead ts]) i1 _ (history_read _ _ _ _ _ _ _ _ H R)) as K.
      destruct (exec_ops data i1 ops) as [i out]. rewrite <- !app_assoc in K. exact K.
    - pose proof (IH (pre ++ [OpRestore]) 0 out0 (history_restore _ _ _ _ H)) as K.
      unfold exec_restore. destruct (exec_ops data 0 ops) as [i out]. rewrite <- app_assoc in K. exact K. }
  apply (G ops [] 0 []). cbn. constructor.
Qed.
Print Assumptions C28_history.

(** That history is the only one. *)
Theorem C28_reads_deterministic : forall left ts vs left' ok vs2 left2 ok2,
  reads left ts vs left' ok -> reads left ts vs2 left2 ok2 -> vs = vs2 /\ left' = left2 /\ ok = ok2.
Proof.
  assert (Acc : forall t d v w, accepts_value t d v -> accepts_value t d w -> v = w).
  { intros t d v w. destruct t, d; cbn [accepts_value];
      lazymatch goal with
      | |- context [double_to_integer] => intros (i & Hi & ->) (j & Hj & ->); rewrite Hi in Hj; congruence
      | |- context [f64_of_i32] => intros -> ->; reflexivity
      | |- _ => intros [_ ->] [_ ->]; reflexivity
      end. }
  intros left ts vs left' ok vs2 left2 ok2 H. revert vs2 left2 ok2.
  induction H as [left|d left t ts v vs left' ok A R IH|left t ts v vs left' ok A R IH|t ts|d left t ts A];
    intros vs2 left2 ok2 R2; inversion R2; subst; auto.
  - destruct (IH _ _ _ ltac:(eassumption)) as (-> & -> & ->). split; [f_equal; eapply Acc; eassumption|auto].
  - exfalso. match goal with H : forall v, ~ _ |- _ => eapply H; exact A end.
  - destruct (IH _ _ _ ltac:(eassumption)) as (-> & -> & ->). unfold default_value in *. split; [congruence|auto].
  - exfalso. eapply A. eassumption.
Qed.
Print Assumptions C28_reads_deterministic.

(** The errors: reading past the end leaves the position unchanged; a value of the wrong type is
    skipped by the failing READ. *)
Theorem C28_errors : forall data index t ts,
  (length data <= index -> exec_read data index (t :: ts) = ([], index, Some (RdOutOfData 0))) /\
  (forall d, nth_error data index = Some (Some d) -> (forall v, ~ accepts_value t d v) ->
     exists e, exec_read data index (t :: ts) = ([], S index, Some e) /\
       (e = RdConversion 0 \/ e = RdMismatch 0 (cdatum_etype d) t)).
Proof.
  intros data index t ts. split.
  - intros L. unfold exec_read. cbn [read_loop]. apply nth_error_None in L. rewrite L. reflexivity.
  - intros d E A. unfold exec_read. cbn [read_loop]. rewrite E.
    pose proof (assign_accepts 0 t d) as Acc. destruct (assign_datum 0 t d) as [v|e] eqn:As.
    + exfalso. exact (A v Acc).
    + exists e. split; [reflexivity|]. clear - As.
      destruct t, d; cbn [assign_datum] in As;
        lazymatch type of As with
        | Ok _ = Err _ => discriminate As
        | match double_to_integer ?x with _ => _ end = _ =>
            destruct (double_to_integer x); [discriminate As|left; congruence]
        | _ => right; congruence
        end.
Qed.
Print Assumptions C28_errors.

Example C28_case :
  exec_ops [Some (CInt 3); None; Some (CText (u "x"))] 0
    [OpRead [TDouble; TBoolean]; OpRead [TInteger]; OpRestore; OpRead [TInteger]] =
  (1, [([CDouble (f64_of_i32 3); CBool false], true); ([], false); ([CInt 3], true)]).
Proof. reflexivity. Qed.
