(** Compiled expressions with calls and array elements compute what [evals] says. *)
From Coq Require Import String.
From Verif Require Import Base Bytecode_Model Bytecode_Spec Bytecode_Proofs Mem_Model Mem_Spec Mem_Proofs Num_Model
  Vm_Model Vm_Spec Vm_Proofs Ids_Model Ids_Spec Ids_Proofs Ast_Model Syms_Model Syms_Proofs Codegen_Model
  Codegen_Proofs Exprs_Model Exprs_Proofs Args_Spec Args_Proofs Eval_Spec Eval_Proofs Call_Spec Run_Proofs.
Local Open Scope list_scope.
Local Open Scope nat_scope.

(** Places in the code that have names. *)
Inductive point := AtCallable (k : ustr) | AtLabel (l : ustr).

Section Calls.
Variable powf : N -> N -> N.
Variable img : image.
Context {W : Type}.
Variable upcall : N -> N -> nat -> image -> ctx -> heap -> W -> option (upcall_result W).
Variable L : lsyms.
Variable hidden : N -> option hdatum.
Variable calls : ustr -> list given -> env W -> res vm_error (option cdatum) -> env W -> Prop.
Variable ups : list ustr.
Variable entry : point -> N -> Prop.
Notation cs := (i_constants img).
Notation callable := (get_callable (ls_global L)).
Notation holding := (holding L hidden cs).
Notation laid := (laid L).
Notation evals := (evals powf callable (is_variable L) calls).
Notation evals_as := (evals_as powf callable (is_variable L) calls).
Notation gives := (gives powf callable (is_variable L) calls).
Notation delivers := (delivers powf callable (is_variable L) calls).
Notation gsteps := (gsteps powf img upcall).
Notation fails := (fails powf upcall img).
Notation gives_up := (gives_up powf upcall img).
Notation user md := (md_user md = true).
Implicit Types (m : mem W) (s : env W).

(** ** Running *)

Definition idle (ls : lsyms) (skip : option N) (c : ctx) (i : nat) : Prop :=
  64 <= i < c_fp c \/ c_fp c + id_len (ls_locals ls) <= i \/ exists r, skip = Some r /\ i = reg_index c r.
Definition dest (ls : lsyms) (skip : option N) (reg : N) : Prop :=
  skip = Some reg \/ (64 + N.of_nat (id_len (ls_locals ls)) <= reg)%N.

Definition greach (ls : lsyms) (skip : option N) (lim : nat) (reg : N) (c : ctx) (m : mem W) (c' : ctx) (m' : mem W) : Prop :=
  gsteps c m c' m' /\ same_frame c c' /\ texts_kept m m' /\
  forall i, i < lim -> i <> reg_index c reg -> idle ls skip c i -> slot c' i = slot c i.

Lemma same_frame_refl c : same_frame c c.
Proof. repeat split. Qed.
Lemma same_frame_trans a b c : same_frame a b -> same_frame b c -> same_frame a c.
Proof. unfold same_frame. intuition congruence. Qed.
Lemma texts_refl (h : heap) : heap_ok h -> texts_kept h h.
Proof. split; auto. Qed.
Lemma texts_trans a b c : texts_kept a b -> texts_kept b c -> texts_kept a c.
Proof. intros [A1 A2] [B1 B2]. split; auto. Qed.
Lemma texts_heap h h' : heap_kept h h' -> texts_kept h h'.
Proof. intros [A B]. split; auto. Qed.
Lemma stands_texts h h' t raw d : texts_kept h h' -> stands_for cs h t raw d -> stands_for cs h' t raw d.
Proof.
  intros [_ K]. destruct d; cbn [stands_for]; auto. intros [-> H]. split; [reflexivity|].
  revert H. unfold deref_text. destruct (ptr_from raw) as [[i|i]|]; auto. cbn [resolve_string].
  destruct (heap_get h i) as [[x|]|] eqn:E; try discriminate. rewrite (K _ _ E). auto.
Qed.
Lemma idle_fp ls skip c c' i : c_fp c' = c_fp c -> idle ls skip c i -> idle ls skip c' i.
Proof.
  intros E [A|[A|(r & A & B)]]; unfold idle; rewrite E; auto. right. right. exists r. split; [exact A|].
  rewrite (reg_index_fp c c'); assumption.
Qed.

Lemma greach_refl ls skip lim reg c m : heap_ok m -> greach ls skip lim reg c m c m.
Proof. intros O. split; [constructor|]. split; [apply same_frame_refl|]. split; [apply texts_refl, O|auto]. Qed.
Lemma greach_trans ls skip lim reg c m c1 m1 c2 m2 : greach ls skip lim reg c m c1 m1 -> greach ls skip lim reg c1 m1 c2 m2 ->
  greach ls skip lim reg c m c2 m2.
Proof.
  intros (A1 & A2 & A3 & A4) (B1 & B2 & B3 & B4). split; [eapply gsteps_trans; eassumption|].
  split; [eapply same_frame_trans; eassumption|]. split; [eapply texts_trans; eassumption|].
  intros i X Y Z. rewrite B4, A4; auto.
  - rewrite (reg_index_fp c); [assumption|apply A2].
  - eapply idle_fp; [apply A2|exact Z].
Qed.
Lemma greach_temp ls skip lim lim' reg rtemp c m c' m' : greach ls skip lim' rtemp c m c' m' -> lim <= lim' ->
  lim <= reg_index c rtemp -> greach ls skip lim reg c m c' m'.
Proof.
  intros (A1 & A2 & A3 & A4) X Y. split; [exact A1|]. split; [exact A2|]. split; [exact A3|].
  intros i Q N1. apply A4; clear -X Y Q; lia.
Qed.
Lemma greach_fp ls skip lim reg c m c' m' : greach ls skip lim reg c m c' m' -> c_fp c' = c_fp c.
Proof. intros (_ & (A & _) & _). exact A. Qed.
Lemma greach_index ls skip lim reg c m c' m' r : greach ls skip lim reg c m c' m' -> reg_index c' r = reg_index c r.
Proof. intros H. apply reg_index_fp. eapply greach_fp, H. Qed.
Lemma greach_top ls skip lim reg c m c' m' l t : greach ls skip lim reg c m c' m' -> top_slot l c' t = top_slot l c t.
Proof. intros H. unfold top_slot. rewrite (greach_fp _ _ _ _ _ _ _ _ H). reflexivity. Qed.
Lemma greach_texts ls skip lim reg c m c' m' : greach ls skip lim reg c m c' m' -> texts_kept m m'.
Proof. intros H. apply H. Qed.

Lemma greach_reach ls skip lim reg c (m : mem W) c' h' : reach powf img lim reg c m c' h' -> c_yield c = false ->
  greach ls skip lim reg c m c' (mkMem h' (m_world m)).
Proof.
  intros (A & (B1 & B2 & B3 & B4 & B5) & C & D) Y. split; [|split; [repeat split; assumption|split]].
  - change m with (mkMem (m_heap m) (m_world m)). apply from_steps; [exact A|congruence].
  - apply texts_heap, C.
  - intros i X Z _. apply D; assumption.
Qed.

Definition gfails c m e w := exists c' m', gsteps c m c' m' /\ fails c' m' e w.
Definition stuck c m := exists c' m', gsteps c m c' m' /\ gives_up c' m'.
Definition gsettles (ls : lsyms) (skip : option N) (pc' lim : nat) (reg : N) (t : etype) (c : ctx) (m : mem W)
    (r : res vm_error cdatum) (s' : env W) : Prop :=
  stuck c m \/
  match r with
  | Ok d => exists c' m', greach ls skip lim reg c m c' m' /\ c_pc c' = pc' /\
      stands_for cs m' t (get_reg c' reg) d /\ holding ls skip c' m' s'
  | Err e => gfails c m e (world s')
  end.

(** ** Between statements: the registers of callers stay. *)
Definition go (c : ctx) (m : mem W) (c' : ctx) (m' : mem W) : Prop :=
  gsteps c m c' m' /\ same_frame c c' /\ texts_kept m m' /\ forall i, 64 <= i < c_fp c -> slot c' i = slot c i.
Lemma go_refl c m : heap_ok m -> go c m c m.
Proof. intros H. split; [constructor|]. split; [apply same_frame_refl|]. split; [apply texts_refl, H|auto]. Qed.
Lemma go_trans c m c1 m1 c2 m2 : go c m c1 m1 -> go c1 m1 c2 m2 -> go c m c2 m2.
Proof.
  intros (A1 & A2 & A3 & A4) (B1 & B2 & B3 & B4). split; [eapply gsteps_trans; eassumption|].
  split; [eapply same_frame_trans; eassumption|]. split; [eapply texts_trans; eassumption|].
  intros i X. rewrite B4, A4; auto. rewrite (proj1 A2). exact X.
Qed.
Lemma go_fp c m c' m' : go c m c' m' -> c_fp c' = c_fp c.
Proof. intros (_ & (A & _) & _). exact A. Qed.
Lemma go_reach ls skip lim reg c m c' m' : greach ls skip lim reg c m c' m' -> c_fp c <= lim -> 64 <= c_fp c -> go c m c' m'.
Proof.
  intros (A1 & A2 & A3 & A4) LE FP. split; [exact A1|]. split; [exact A2|]. split; [exact A3|].
  intros i X. apply A4; [clear -X LE; lia| |left; exact X]. clear -X FP.
  unfold reg_index, register_to_parts, max_global. destruct (N.ltb_spec reg 64); cbn [fst snd]; lia.
Qed.
Lemma gfails_go c m c1 m1 e w : go c m c1 m1 -> gfails c1 m1 e w -> gfails c m e w.
Proof. intros R (c' & m' & A & B). exists c', m'. split; [eapply gsteps_trans; [apply R|exact A]|exact B]. Qed.
Lemma stuck_go c m c1 m1 : go c m c1 m1 -> stuck c1 m1 -> stuck c m.
Proof. intros R (c' & m' & A & B). exists c', m'. split; [eapply gsteps_trans; [apply R|exact A]|exact B]. Qed.

Lemma gfails_after ls skip lim reg c m c1 m1 e w : greach ls skip lim reg c m c1 m1 -> gfails c1 m1 e w -> gfails c m e w.
Proof. intros R (c' & m' & A & B). exists c', m'. split; [eapply gsteps_trans; [apply R|exact A]|exact B]. Qed.
Lemma stuck_after ls skip lim reg c m c1 m1 : greach ls skip lim reg c m c1 m1 -> stuck c1 m1 -> stuck c m.
Proof. intros R (c' & m' & A & B). exists c', m'. split; [eapply gsteps_trans; [apply R|exact A]|exact B]. Qed.
Lemma gsettles_after ls skip pc' lim reg t c m c1 m1 r s' : greach ls skip lim reg c m c1 m1 ->
  gsettles ls skip pc' lim reg t c1 m1 r s' -> gsettles ls skip pc' lim reg t c m r s'.
Proof.
  intros R [H|H]; [left; eapply stuck_after; eassumption|right].
  destruct r; [|eapply gfails_after; eassumption].
  destruct H as (c' & m' & A & B). exists c', m'. split; [eapply greach_trans; eassumption|exact B].
Qed.

(** ** Variables *)

(** The compiler's tables at this point and at the end of the program. *)
Record knowing (ls : lsyms) : Prop := mkKnowing {
  kn_ok : tables_ok (by_now L ls);
  kn_apart : no_shadowing (by_now L ls);
  kn_lookup : forall v, ~ undefined (get_local_or_global ls v) ->
    get_local_or_global (by_now L ls) v = get_local_or_global ls v;
  kn_fun : forall k md, get_callable (ls_global ls) k = Some md -> callable k = Some md;
  kn_host : forall k md, get_callable (ls_global ls) k = Some md -> md_user md = false ->
    assoc (gs_upcalls (ls_global L)) k = Some md;
  kn_array : forall v r t n, get_local_or_global ls v = Ok (r, PArray t n) -> callable (symkey (vr_name v)) = None;
  kn_none : forall v md, callable (symkey (vr_name v)) = Some md -> undefined (get_local_or_global ls v) ->
    undefined (get_local_or_global (by_now L ls) v);
  kn_var : forall v r p, get_local_or_global ls v = Ok (r, p) -> is_variable L (symkey (vr_name v)) = true
}.

Lemma by_now_wf ls : knowing ls -> ls_wf ls.
Proof. intros K. apply (proj1 (kn_ok _ K)). Qed.
Lemma by_now_range ls v r p : knowing ls -> get_local_or_global (by_now L ls) v = Ok (r, p) ->
  (r < 64)%N \/ (64 <= r < 64 + N.of_nat (id_len (ls_locals ls)))%N /\ (r < 256)%N.
Proof. intros K G. apply (lookup_range (by_now L ls) v r p (proj1 (kn_ok _ K)) G). Qed.

Lemma represents_kept h h' p raw x : heap_kept h h' -> represents cs h p raw x -> represents cs h' p raw x.
Proof.
  intros K. destruct x as [d|t dims at_], p as [t' n|t']; cbn [represents]; auto.
  - apply stands_kept, K.
  - intros (A & B & i & vs & C1 & C2 & C3 & C4 & C5). split; [exact A|]. split; [exact B|].
    exists i, vs. split; [exact C1|]. split; [exact C2|]. split; [apply K, C3|]. split; [exact C4|].
    intros subs V. destruct (C5 subs V) as (v & E & S1). exists v. split; [exact E|]. eapply stands_kept; eassumption.
Qed.

(** Slots of variables that stay the same, with all that is on the heap. *)
Lemma holding_same ls skip c (m : mem W) s c' m' : holding ls skip c m s -> c_yield c' = false -> same_frame c c' ->
  m_world m' = m_world m -> heap_kept m m' ->
  (forall v r p, get_local_or_global (by_now L ls) v = Ok (r, p) -> skip <> Some r -> get_reg c' r = get_reg c r) ->
  holding ls skip c' m' s.
Proof.
  intros [A1 A2 A3 A4 A5 A6 A7 A8 A9 A10] Y (FP & _ & FS & FM) WD K G.
  assert (GS : forall v r p x, seen L ls skip s v r p x -> get_reg c' r = get_reg c r).
  { intros v r p x (S1 & S2 & S3). eapply G; eassumption. }
  constructor; auto; try (rewrite ?FP, ?FS, ?FM; assumption); try (apply K); try congruence.
  - intros v r p x S1. rewrite (GS _ _ _ _ S1). eapply represents_kept; [exact K|]. eapply A7, S1.
  - intros v r p t dims at_ v' r' p' t' dims' at_' S1 S2. rewrite (GS _ _ _ _ S1), (GS _ _ _ _ S2). eauto.
  - intros i d E. apply K. auto.
  - intros v r p t dims at_ i S1. rewrite (GS _ _ _ _ S1). eauto.
Qed.

Lemma dest_not_var ls skip reg v r p : knowing ls -> dest ls skip reg -> get_local_or_global (by_now L ls) v = Ok (r, p) ->
  skip <> Some r -> r <> reg.
Proof.
  intros K D G NS ->. destruct D as [D|D]; [contradiction|]. pose proof (by_now_range _ _ _ _ K G) as BR. clear -D BR. lia.
Qed.
Lemma by_now_slot ls v r p c : knowing ls -> get_local_or_global (by_now L ls) v = Ok (r, p) -> 64 <= c_fp c ->
  reg_index c r < c_fp c + id_len (ls_locals ls).
Proof.
  intros K G F. pose proof (by_now_range _ _ _ _ K G) as R. clear -R F. unfold reg_index, register_to_parts, max_global.
  destruct (N.ltb_spec r 64); cbn [fst snd]; lia.
Qed.

Lemma holding_reach ls skip lim reg c (m : mem W) c' h' s : knowing ls -> holding ls skip c m s ->
  reach powf img lim reg c m c' h' -> dest ls skip reg -> c_fp c + id_len (ls_locals ls) <= lim ->
  holding ls skip c' (mkMem h' (m_world m)) s.
Proof.
  intros K H (A & (B1 & B2 & B3 & B4 & B5) & C & D) DS LE. pose proof (hd_fp _ _ _ _ _ _ _ _ H) as FP.
  eapply holding_same; [exact H|rewrite B5; apply H|repeat split; assumption|reflexivity|exact C|].
  intros v r p G NS. unfold get_reg. rewrite (reg_index_fp c c' r) by exact B1. apply D.
  - pose proof (by_now_slot _ _ _ _ c K G FP) as BS. clear -BS LE. lia.
  - intros E. apply (dest_not_var _ _ _ _ _ _ K DS G NS). apply (reg_index_eq c); assumption.
Qed.

Lemma lift_settles ls skip pc' lim reg t c (m : mem W) r s : knowing ls -> holding ls skip c m s ->
  settles powf img pc' lim reg t c m r -> dest ls skip reg -> c_fp c + id_len (ls_locals ls) <= lim ->
  gsettles ls skip pc' lim reg t c m r s.
Proof.
  intros K H S0 D LE. pose proof (hd_yield _ _ _ _ _ _ _ _ H) as Y.
  assert (FF : forall e, failing powf img lim reg c m e -> gfails c m e (world s)).
  { intros e (c' & h' & R & pc & F). exists c', (mkMem h' (m_world m)). split; [eapply (greach_reach ls skip); eassumption|].
    rewrite <- (hd_world _ _ _ _ _ _ _ _ H). change (m_world m) with (m_world (mkMem h' (m_world m))). eapply F_machine. exact F. }
  assert (SS : failing powf img lim reg c m XHeap -> stuck c m).
  { intros F. destruct (FF _ F) as (c' & m' & R & F'). exists c', m'. split; [exact R|]. left. exists XHeap, (world s).
    split; [left; reflexivity|exact F']. }
  destruct r as [d|e]; cbn [settles] in S0.
  - destruct S0 as [(c' & h' & R & P & ST)|F]; [|left; auto]. right. exists c', (mkMem h' (m_world m)).
    split; [apply greach_reach; assumption|]. split; [exact P|]. split; [exact ST|]. eapply holding_reach; eassumption.
  - destruct S0 as [F|F]; [right|left]; auto.
Qed.

(** ** Code *)

Definition ups_in (g : codegen) : Prop := forall ord, wf (g_upcalls g) ord -> exists rest, ups = ord ++ rest.
Definition calls_in (g : codegen) (from : nat) : Prop := forall a reg k, from <= a -> In (a, FxCall reg k) (g_fixups g) ->
  exists target, entry (AtCallable k) target /\ fetched img a (ICall reg target).
Definition gotos_in (g : codegen) : Prop := forall a l,
  (In (a, FxGoto l) (g_fixups g) -> exists target, entry (AtLabel (symkey l)) target /\ fetched img a (IJump target)) /\
  (In (a, FxGosub l) (g_fixups g) -> exists target, entry (AtLabel (symkey l)) target /\ fetched img a (IGosub target)).
Definition labels_in (g : codegen) : Prop := forall l a target, assoc (g_labels g) l = Some a -> entry (AtLabel l) target ->
  N.to_nat target = a.
Definition args_in (g : codegen) (from : nat) : Prop := forall a md, from <= a < next_pc g -> nth_error (g_instrs g) a = Some md ->
  gives_at img a (length (m_args md)).
Record loaded (g : codegen) (from : nat) : Prop := mkLoaded {
  ld_code : code_in img g from (next_pc g);
  ld_consts : consts_in img g;
  ld_ups : ups_in g;
  ld_calls : calls_in g from;
  ld_gotos : gotos_in g;
  ld_labels : labels_in g;
  ld_args : args_in g from
}.
Lemma loaded_before g g' from : grows (next_pc g) g g' -> from <= next_pc g -> loaded g' from -> loaded g from.
Proof.
  intros G LE [A B C D E F A7]. pose proof (gr_len _ _ _ G) as GL. constructor.
  - eapply code_before; [exact G| |exact A|reflexivity]. clear -GL LE. lia.
  - eapply consts_before; eassumption.
  - intros ord W0. destruct (gr_up _ _ _ G _ W0) as [new W1]. destruct (C _ W1) as [rest E1].
    exists (new ++ rest). rewrite E1, app_assoc. reflexivity.
  - intros a reg k X I1. destruct (gr_fix _ _ _ G) as (new & E1 & _). apply (D a reg k X). rewrite E1. apply in_or_app. auto.
  - intros a l. destruct (gr_fix _ _ _ G) as (new & E1 & _). destruct (E a l) as [E2 E3].
    split; intros I1; [apply E2|apply E3]; rewrite E1; apply in_or_app; auto.
  - intros l a t X. apply F. apply (gr_labels _ _ _ G), X.
  - intros a md R X. apply A7; [lia|]. rewrite (gr_meta _ _ _ G) by apply R. exact X.
Qed.
Lemma loaded_after g from from' : loaded g from -> from <= from' -> loaded g from'.
Proof.
  intros [A B C D E F A7] LE. constructor; auto.
  - intros p i R. apply A. clear -R LE. lia.
  - intros a reg k X. apply D. clear -X LE. lia.
  - intros a md R. apply A7. clear -R LE. lia.
Qed.
Lemma loaded_emit i p g from : loaded (emit i p g) from -> gwf g -> from <= next_pc g -> loaded g from.
Proof. intros H W0 LE. eapply loaded_before; [apply (grows_emit (next_pc g) i p); [exact W0|apply le_n]|exact LE|exact H]. Qed.
Lemma loaded_at i p g from : loaded (emit i p g) from -> from <= next_pc g -> i <> INop -> fetched img (next_pc g) i.
Proof. intros H LE N1. eapply code_emit1; [apply H|exact LE|exact N1]. Qed.

(** ** Calls *)

(** At [c], the machine is about to call the function [k], which leaves its value in [ret], with
    [n] arguments. *)
Inductive call_site (c : ctx) (k : ustr) (md : callable_md) (ret : N) (n : nat) : Prop :=
| Site_host idx : md_user md = false -> assoc (gs_upcalls (ls_global L)) k = Some md ->
    nth_error ups (N.to_nat idx) = Some k -> fetched img (c_pc c) (upcall_instr md idx ret) ->
    gives_at img (c_pc c) n -> call_site c k md ret n
| Site_user target : md_user md = true -> entry (AtCallable k) target -> fetched img (c_pc c) (ICall ret target) -> call_site c k md ret n.

(** Variables whose addresses are given are not the one being computed. *)
Definition shares_well (ls : lsyms) (skip : option N) (gs : list given) : Prop :=
  forall v r p t, In (GRef (symkey (vr_name v)) t) gs -> get_local_or_global (by_now L ls) v = Ok (r, p) -> skip <> Some r.

Definition functions_obey : Prop := forall ls skip c (m : mem W) s k md t ret lim gs r s',
  callable k = Some md -> md_return md = Some t -> call_site c k md ret (length gs) -> knowing ls -> holding ls skip c m s ->
  (64 <= ret < 256)%N -> dest ls skip ret -> laid ls cs c m (S (reg_index c ret)) gs -> shares_well ls skip gs ->
  reg_index c ret < lim ->
  (user md -> (forall r, skip = Some r -> (64 <= r)%N) /\ c_fp c + id_len (ls_locals ls) <= lim <= S (reg_index c ret)) ->
  calls k gs s r s' ->
  match r with
  | Ok None => True
  | Ok (Some d) => gsettles ls skip (S (c_pc c)) lim ret t c m (Ok d) s'
  | Err e => gsettles ls skip (S (c_pc c)) lim ret t c m (Err e) s'
  end.
(** Commands; what they are given starts at [first]. *)
Definition commands_obey : Prop := forall ls c (m : mem W) s k md first gs r s',
  callable k = Some md -> md_return md = None -> call_site c k md first (length gs) -> knowing ls -> holding ls None c m s ->
  (64 + N.of_nat (id_len (ls_locals ls)) <= first < 256)%N -> laid ls cs c m (reg_index c first) gs ->
  calls k gs s r s' ->
  stuck c m \/
  match r with
  | Ok (Some _) => True
  | Ok None => exists c' m', go c m c' m' /\ c_pc c' = S (c_pc c) /\ holding ls None c' m' s'
  | Err e => gfails c m e (world s')
  end.
Hypothesis functions_ok : functions_obey.
Hypothesis calls_local : forall k gs s r s' k', calls k gs s r s' -> is_shared L k' = false -> (r = Ok None -> forall t, ~ In (GRef k' t) gs) -> vals s k' = None -> vals s' k' = None.

Scheme evals_ind' := Minimality for Call_Spec.evals Sort Prop
  with evals_as_ind' := Minimality for Call_Spec.evals_as Sort Prop
  with gives_ind' := Minimality for Call_Spec.gives Sort Prop
  with delivers_ind' := Minimality for Call_Spec.delivers Sort Prop.
Combined Scheme evals_all_ind from evals_ind', evals_as_ind', gives_ind', delivers_ind'.

Definition local_kept (s s' : env W) : Prop := forall k, is_shared L k = false -> vals s k = None -> vals s' k = None.
Lemma evals_local :
  (forall s e r s', evals s e r s' -> local_kept s s') /\ (forall s t e r s', evals_as s t e r s' -> local_kept s s') /\
  (forall new s w r s', gives new s w r s' -> local_kept s s') /\ (forall new s ws r s', delivers new s ws r s' -> local_kept s s').
Proof.
  apply evals_all_ind; unfold local_kept; intros; eauto using calls_local;
    match goal with C : calls _ _ _ _ _ |- _ => refine (calls_local _ _ _ _ _ _ C _ _ _); [assumption|discriminate|eauto] end.
Qed.

Section Fixed.
Variable ls : lsyms.
Variable skip : option N.
Hypothesis K : knowing ls.
Notation greach := (greach ls skip).
Notation gsettles := (gsettles ls skip).
Notation dest := (dest ls skip).

(** A name in an expression whose value goes to [skip] does not have the register [skip], unless
    the variable has no value yet; functions of the program are not called in such an expression
    for a shared variable. *)
Definition clear (s : env W) (v : varref) : Prop := forall v' r p, symkey (vr_name v') = symkey (vr_name v) -> skip = Some r ->
  get_local_or_global (by_now L ls) v' = Ok (r, p) -> vals s (symkey (vr_name v)) = None /\ is_shared L (symkey (vr_name v)) = false.
Definition own_frame (v : varref) : Prop := forall md r, callable (symkey (vr_name v)) = Some md -> user md -> skip = Some r -> (64 <= r)%N.
Definition named (s : env W) (called : bool) (v : varref) : Prop :=
  if called then forall r t n, get_local_or_global ls v = Ok (r, PArray t n) -> clear s v else clear s v.
Definition fine (s : env W) (e : expr) : Prop := within (fun called v => named s called v /\ own_frame v) in_i32 e.
Definition fine_want (s : env W) (w : want) : Prop :=
  match w with WValue _ _ e => fine s e | WRef _ v => clear s v | WMissing _ => True end.

Lemma clear_later s s' v : local_kept s s' -> clear s v -> clear s' v.
Proof. intros LK C v' r p SK E G. destruct (C v' r p SK E G) as [A B]. split; [apply LK; assumption|exact B]. Qed.
Lemma within_impl (P Q : bool -> varref -> Prop) Z e : (forall b v, P b v -> Q b v) -> within P Z e -> within Q Z e.
Proof.
  intros PQ. induction e as [b p|b p|z p|x p|w p|o l rr p IHl IHr|o e p IHe|w p args IH] using expr_rect';
    cbn [within]; auto.
  - intros [A B]. auto.
  - intros [A B]. split; [auto|]. clear A. induction IH as [|[[[a|] sp] q] l H IH IHl]; [exact B| |exact (IHl B)].
    destruct B as [X Y]. split; [exact (H X)|exact (IHl Y)].
Qed.
Lemma fine_later s s' e : local_kept s s' -> fine s e -> fine s' e.
Proof.
  intros LK. apply within_impl. intros called v [A B]. split; [|exact B].
  destruct called; cbn [named] in *; [intros r t n G; specialize (A r t n G)|]; eapply clear_later; eassumption.
Qed.
Lemma fine_want_later s s' w : local_kept s s' -> fine_want s w -> fine_want s' w.
Proof. intros LK. destruct w; cbn [fine_want]; auto; [apply fine_later|apply clear_later]; exact LK. Qed.

Lemma clear_seen s v r p x : clear s v -> vals s (symkey (vr_name v)) = Some x ->
  get_local_or_global (by_now L ls) v = Ok (r, p) -> seen L ls skip s v r p x.
Proof.
  intros C E G. split; [exact E|]. split; [exact G|]. intros SK. destruct (C v r p eq_refl SK G) as [N1 _]. congruence.
Qed.

(** ** Outcomes of expressions *)

Definition topmost (c : ctx) (reg : N) (lim : nat) (e : expr) : Prop := forall v p md, leftmost e = ESymbol v p ->
  callable (symkey (vr_name v)) = Some md -> user md -> lim <= S (reg_index c reg).
(** The slots below [lim] are to stay, [reg] being one of them. *)
Definition spare (c : ctx) (reg : N) (lim : nat) (st : est) : Prop :=
  reg_index c reg < lim /\ c_fp c + id_len (ls_locals ls) <= lim <= top_slot ls c (snd st).

Definition works (e : expr) : Prop := forall reg st st' t lim c (m : mem W) s r s',
  compile_expr ls e reg st = COk (st', t) -> gwf (fst st) -> loaded (fst st') (next_pc (fst st)) -> fine s e ->
  holding ls skip c m s -> c_pc c = next_pc (fst st) -> spare c reg lim st -> (reg < 256)%N -> dest reg ->
  topmost c reg lim e -> evals s e r s' ->
  gsettles (next_pc (fst st')) lim reg t c m r s'.

Lemma top_above c t : c_fp c + id_len (ls_locals ls) <= top_slot ls c t.
Proof. unfold top_slot. lia. Qed.
Lemma spare_all c reg st : reg_index c reg < top_slot ls c (snd st) -> spare c reg (top_slot ls c (snd st)) st.
Proof. intros H. split; [exact H|]. split; [apply top_above|apply le_n]. Qed.
Lemma gsettles_less pc lim lim' reg t c m r s : lim <= lim' -> gsettles pc lim' reg t c m r s -> gsettles pc lim reg t c m r s.
Proof.
  intros LE [H|H]; [left; exact H|right]. destruct r as [d|e]; [|exact H].
  destruct H as (c' & m' & (A1 & A2 & A3 & A4) & B). exists c', m'. split; [|exact B].
  split; [exact A1|]. split; [exact A2|]. split; [exact A3|]. intros i X. apply A4. clear -X LE. lia.
Qed.

(** The value as one of a type, or as it is. *)
Definition compile_as (ot : option etype) (e : expr) (epos : linecol) (reg : N) (st : est) : cres (est * etype) :=
  match ot with
  | Some t => bind (as_type (compile_expr ls e) epos reg t st) (fun st' => COk (st', t))
  | None => compile_expr ls e reg st
  end.

Lemma compile_as_frame ot e epos reg st st' t : compile_as ot e epos reg st = COk (st', t) -> gwf (fst st) ->
  egrows (next_pc (fst st)) st st' /\ next_pc (fst st) < next_pc (fst st').
Proof.
  unfold compile_as. destruct ot as [t0|]; intros H W0.
  - apply bind_ok in H as (st1 & H & E). apply COk_inj, pair_inj in E as [-> ->].
    eapply as_type_frame; [|exact H|exact W0]. exact (compile_expr_frame ls e).
  - apply (compile_expr_frame ls e _ _ _ _ H W0).
Qed.

Lemma as_works ot e epos reg st st' t lim c (m : mem W) s r s' : works e -> compile_as ot e epos reg st = COk (st', t) ->
  gwf (fst st) -> loaded (fst st') (next_pc (fst st)) -> fine s e ->
  holding ls skip c m s -> c_pc c = next_pc (fst st) -> spare c reg lim st -> (reg < 256)%N -> dest reg ->
  topmost c reg lim e -> evals_as s ot e r s' ->
  gsettles (next_pc (fst st')) lim reg t c m r s'.
Proof.
  intros WK H W0 LD FI HD PC RL RB DS TM EV. destruct ot as [t0|]; cbn [compile_as] in H.
  - apply bind_ok in H as (st2 & H & E). apply COk_inj, pair_inj in E as [-> <-].
    unfold as_type in H. apply bind_ok in H as ([st1 t1] & E1 & H).
    destruct (compile_expr_frame ls e _ _ _ _ E1 W0) as [[G1 N1] L1].
    assert (W1 : gwf (fst st1)) by (eapply grows_gwf; eassumption).
    assert (G2 : grows (next_pc (fst st1)) (fst st1) (fst st')).
    { destruct (etype_eqb t1 t0); [apply COk_inj in H as <-; apply grows_refl|].
      destruct (cast_numerical reg t1 t0 epos (fst st1)) as [g|] eqn:CN; [|discriminate H].
      apply COk_inj in H as <-. cbn [fst]. eapply cast_frame; [exact CN|exact W1|apply le_n]. }
    assert (LD1 : loaded (fst st1) (next_pc (fst st))) by (eapply loaded_before; [exact G2|lia|exact LD]).
    assert (EV' : exists r0, evals s e r0 s' /\ match r0 with Ok a => convert t0 a = Some r | Err x => r = Err x end).
    { inversion EV as [? ? ? a0 ? ? X1 X2|? ? ? x0 ? X1]; subst; [exists (Ok a0)|exists (Err x0)]; split; try exact X1; [exact X2|reflexivity]. }
    destruct EV' as (r0 & EV0 & CV).
    pose proof (WK reg st st1 t1 lim c m s r0 s' E1 W0 LD1 FI HD PC RL RB DS TM EV0) as S1.
    destruct S1 as [S1|S1]; [left; exact S1|]. destruct r0 as [a|x]; [|subst r; right; exact S1].
    destruct S1 as (c1 & m1 & R1 & P1 & T1 & H1). eapply gsettles_after; [exact R1|].
    destruct (etype_eqb t1 t0) eqn:ET.
    + apply COk_inj in H as <-. assert (t1 = t0) as -> by (destruct t1, t0; try discriminate ET; reflexivity).
      assert (CV' : convert t0 a = Some (Ok a)).
      { destruct a; cbn [stands_for] in T1; destruct T1 as [-> _]; reflexivity. }
      rewrite CV' in CV. injection CV as <-.
      right. exists c1, m1. split; [apply greach_refl; apply H1|]. auto.
    + destruct (cast_numerical reg t1 t0 epos (fst st1)) as [g|] eqn:CN; [|discriminate H].
      apply COk_inj in H as <-. cbn [fst] in *.
      destruct (cast_runs powf img reg t1 t0 epos (fst st1) g lim c1 m1 a ET CN) as (r2 & C2 & S2).
      * intros p i R. apply LD. lia.
      * exact P1.
      * apply H1.
      * apply H1.
      * exact T1.
      * rewrite C2 in CV. injection CV as <-. eapply lift_settles; [exact K|exact H1|exact S2|exact DS|].
        rewrite (greach_fp _ _ _ _ _ _ _ _ R1). apply RL.
  - assert (EV0 : evals s e r s').
    { inversion EV as [? ? ? a s1 q EV1 CV|]; subst; [|assumption]. cbn [convert_to] in CV. injection CV as <-. exact EV1. }
    exact (WK reg st st' t lim c m s r s' H W0 LD FI HD PC RL RB DS TM EV0).
Qed.

(** ** One instruction *)

Lemma gwrite lim reg r c m s i raw : holding ls skip c m s -> fetched img (c_pc c) i ->
  dispatch powf img c m i = RNext (Vm_Model.next_pc (set_reg c r raw)) m -> dest r ->
  (r = reg \/ lim <= reg_index c r) ->
  greach lim reg c m (Vm_Model.next_pc (set_reg c r raw)) m /\
  holding ls skip (Vm_Model.next_pc (set_reg c r raw)) m s.
Proof.
  intros H F D DS R. pose proof (hd_yield _ _ _ _ _ _ _ _ H) as Y. pose proof (hd_fp _ _ _ _ _ _ _ _ H) as FP. split.
  - change m with (mkMem (m_heap m) (m_world m)) at 2. apply greach_reach; [|exact Y].
    eapply reach_write; try eassumption. apply heap_kept_refl, H.
  - eapply holding_same; [exact H|exact Y|repeat split|reflexivity|apply heap_kept_refl, H|].
    intros v q p G NS. apply get_other; [exact FP|]. intros E. apply (dest_not_var _ _ _ _ _ _ K DS G NS). congruence.
Qed.

Lemma temp_dest r t : r = (64 + N.of_nat (id_len (ls_locals ls)) + ts_next t)%N -> dest r.
Proof. intros ->. right. lia. Qed.
Lemma temp_index c r t : r = (64 + N.of_nat (id_len (ls_locals ls)) + ts_next t)%N -> reg_index c r = top_slot ls c t.
Proof.
  intros ->. unfold reg_index, register_to_parts, max_global, top_slot.
  match goal with |- context[(?a <? 64)%N] => destruct (N.ltb_spec a 64); [lia|] end. cbn [fst snd]. lia.
Qed.
Lemma local_dest c r : 64 <= c_fp c -> dest r -> idle ls skip c (reg_index c r).
Proof.
  intros FP [E|E]; [right; right; exists r; auto|right; left].
  unfold reg_index, register_to_parts, max_global. destruct (N.ltb_spec r 64); [lia|]. cbn [fst snd]. lia.
Qed.

(** ** Arguments *)

Definition arrived (base : nat) (st : est) (gs : list given) (c : ctx) (m : mem W) (s : env W) : Prop :=
  c_pc c = next_pc (fst st) /\ holding ls skip c m s /\ laid ls cs c m base gs /\
  top_slot ls c (snd st) = base + length gs /\ c_fp c + id_len (ls_locals ls) <= base.
Definition passes (base : nat) (reg : N) (st' : est) (gs0 : list given) (c : ctx) (m : mem W)
    (r : res vm_error (list given)) (s' : env W) : Prop :=
  stuck c m \/
  match r with
  | Ok gs => exists c' m', greach base reg c m c' m' /\ arrived base st' (gs0 ++ gs) c' m' s'
  | Err e => gfails c m e (world s')
  end.
Definition does (ws : list want) (st st' : est) : Prop := gwf (fst st) ->
  grows (next_pc (fst st)) (fst st) (fst st') /\
  forall new base reg gs c m s r s', loaded (fst st') (next_pc (fst st)) -> Forall (fine_want s) ws ->
    arrived base st gs c m s -> delivers new s ws r s' -> passes base reg st' gs c m r s'.

Lemma laid_kept lim reg c m c' m' base gs : laid ls cs c m base gs -> greach lim reg c m c' m' ->
  base + length gs <= lim -> base + length gs <= reg_index c reg -> c_fp c + id_len (ls_locals ls) <= base ->
  laid ls cs c' m' base gs.
Proof.
  intros LA R L1 L2 L3 k g E. pose proof (LA k g E) as H.
  assert (k < length gs) by (apply nth_error_Some; congruence).
  assert (SE : slot c' (base + k) = slot c (base + k)).
  { destruct R as (_ & _ & _ & R). apply R; [lia|lia|]. right. left. lia. }
  rewrite SE. destruct g as [d|t|k0 t0]; cbn [slot_holds] in *; auto.
  - eapply stands_texts; [eapply greach_texts, R|exact H].
  - rewrite (greach_fp _ _ _ _ _ _ _ _ R). exact H.
Qed.

Lemma laid_snoc c m base gs g : laid ls cs c m base gs -> slot_holds L ls cs c m (slot c (base + length gs)) g ->
  laid ls cs c m base (gs ++ [g]).
Proof.
  intros LA H k g' E. destruct (Nat.lt_ge_cases k (length gs)) as [X|X].
  - rewrite nth_error_app1 in E by exact X. apply LA, E.
  - rewrite nth_error_app2 in E by exact X. destruct (k - length gs) as [|j] eqn:Q.
    + injection E as <-. replace k with (length gs) by lia. exact H.
    + destruct j; discriminate E.
Qed.

Lemma delivers_one new s w r s' : delivers new s [w] r s' -> gives new s w r s'.
Proof.
  intros H. inversion H as [|? ? ? ? g ? ? ? G D|? ? ? ? x ? G|? ? ? ? g ? x ? G D]; subst; auto.
  - inversion D; subst. rewrite app_nil_r. exact G.
  - inversion D.
Qed.
Lemma delivers_app new ws1 : forall s ws2 r s', delivers new s (ws1 ++ ws2) r s' ->
  (exists g s1 r2, delivers new s ws1 (Ok g) s1 /\ delivers new s1 ws2 r2 s' /\
     r = match r2 with Ok gs => Ok (g ++ gs) | Err x => Err x end) \/
  (exists x, r = Err x /\ delivers new s ws1 (Err x) s').
Proof.
  induction ws1 as [|w ws1 IH]; intros s ws2 r s' H; cbn [app] in H.
  - left. exists [], s, r. split; [constructor|]. split; [exact H|]. destruct r; reflexivity.
  - inversion H as [|? ? ? ? g s1 gs ? G D|? ? ? ? x ? G|? ? ? ? g s1 x ? G D]; subst.
    + apply IH in D as [(g2 & s2 & r2 & D1 & D2 & E)|(x & E & D)]; [|discriminate E].
      left. exists (g ++ g2), s2, r2. split; [econstructor; eassumption|]. split; [exact D2|].
      destruct r2; [|discriminate E]. injection E as ->. rewrite app_assoc. reflexivity.
    + right. exists x. split; [reflexivity|]. apply D_fails, G.
    + apply IH in D as [(g2 & s2 & r2 & D1 & D2 & E)|(y & E & D)].
      * left. exists (g ++ g2), s2, r2. split; [econstructor; eassumption|]. split; [exact D2|].
        destruct r2; [discriminate E|]. injection E as ->. reflexivity.
      * injection E as <-. right. exists x. split; [reflexivity|]. eapply D_later_fails; eassumption.
Qed.

Lemma does_none st : does [] st st.
Proof.
  intros W0. split; [apply grows_refl|]. intros new base reg gs c m s r s' LD FI AR DV. inversion DV; subst.
  right. exists c, m. split; [apply greach_refl, AR|]. rewrite app_nil_r. exact AR.
Qed.
Lemma does_app ws1 ws2 st st1 st2 : does ws1 st st1 -> does ws2 st1 st2 -> does (ws1 ++ ws2) st st2.
Proof.
  intros D1 D2 W0. destruct (D1 W0) as [G1 X1]. assert (W1 : gwf (fst st1)) by (eapply grows_gwf; eassumption).
  destruct (D2 W1) as [G2 X2]. pose proof (gr_len _ _ _ G1) as L1. split.
  { eapply grows_trans; [exact G1|]. eapply grows_weaken; [exact G2|exact L1]. }
  intros new base reg gs c m s r s' LD FI AR DV. apply Forall_app in FI as [FI1 FI2].
  assert (LD1 : loaded (fst st1) (next_pc (fst st))) by (eapply loaded_before; [exact G2|exact L1|exact LD]).
  assert (LD2 : loaded (fst st2) (next_pc (fst st1))) by (eapply loaded_after; [exact LD|exact L1]).
  apply delivers_app in DV as [(g & s1 & r2 & DV1 & DV2 & ->)|(x & -> & DV1)].
  2: { destruct (X1 new base reg gs c m s _ _ LD1 FI1 AR DV1) as [P|P]; [left|right]; exact P. }
  destruct (X1 new base reg gs c m s _ _ LD1 FI1 AR DV1) as [P|(c1 & m1 & R1 & A1)]; [left; exact P|].
  assert (FI2' : Forall (fine_want s1) ws2).
  { eapply Forall_impl; [|exact FI2]. intros w. apply fine_want_later.
    exact (proj2 (proj2 (proj2 evals_local)) _ _ _ _ _ DV1). }
  destruct (X2 new base reg (gs ++ g) c1 m1 s1 _ _ LD2 FI2' A1 DV2) as [P|P].
  - left. eapply stuck_after; eassumption.
  - right. destruct r2 as [g2|x]; [|eapply gfails_after; eassumption].
    destruct P as (c2 & m2 & R2 & A2). exists c2, m2. split; [eapply greach_trans; eassumption|].
    rewrite <- app_assoc in A2. exact A2.
Qed.

(** A register for an argument. *)
Definition room (st st' : est) (r : N) : Prop :=
  fst st' = fst st /\ ts_next (snd st') = (ts_next (snd st) + 1)%N /\
  r = (64 + N.of_nat (id_len (ls_locals ls)) + ts_next (snd st))%N /\ (r < 256)%N.
Lemma room_top c st st' r : room st st' r -> top_slot ls c (snd st') = S (top_slot ls c (snd st)).
Proof. intros (_ & A & _). unfold top_slot. rewrite A. lia. Qed.

(** A value in a register, with nothing or the place of a tag before it. *)
Lemma value_sim ot e epos base lim rtemp r0 st st1 st' t gs c m s r s' : works e -> room st st1 rtemp ->
  compile_as ot e epos rtemp st1 = COk (st', t) -> gwf (fst st) -> loaded (fst st') (next_pc (fst st)) -> fine s e ->
  c_pc c = next_pc (fst st) -> holding ls skip c m s -> laid ls cs c m base gs ->
  c_fp c + id_len (ls_locals ls) <= base -> base <= lim -> lim = base + length gs -> lim <= top_slot ls c (snd st) ->
  evals_as s ot e r s' ->
  stuck c m \/
  match r with
  | Ok d => exists c' m', greach base r0 c m c' m' /\ c_pc c' = next_pc (fst st') /\ holding ls skip c' m' s' /\
      laid ls cs c' m' base gs /\ stands_for cs m' t (get_reg c' rtemp) d
  | Err x => gfails c m x (world s')
  end.
Proof.
  intros WK RM CE W0 LD FI PC HD LA BL LL LE TP EV. pose proof RM as (A1 & A2 & A3 & A4).
  pose proof (temp_index c rtemp (snd st) A3) as RI. pose proof (room_top c _ _ _ RM) as RT.
  assert (S0 : gsettles (next_pc (fst st')) (top_slot ls c (snd st1)) rtemp t c m r s').
  { eapply (as_works ot e epos rtemp st1 st'); try eassumption.
    - rewrite A1. exact W0.
    - rewrite A1. exact LD.
    - rewrite A1. exact PC.
    - apply spare_all. lia.
    - eapply temp_dest, A3.
    - intros v p md _ _ _. lia. }
  destruct S0 as [S0|S0].
  - left. exact S0.
  - right. destruct r as [d|x]; [|exact S0].
    destruct S0 as (c' & m' & R & P & ST & H'). exists c', m'.
    split; [eapply greach_temp; [exact R|lia|lia]|]. split; [exact P|]. split; [exact H'|]. split; [|exact ST].
    eapply laid_kept; [exact LA|exact R|lia|lia|lia].
Qed.

Lemma does_value ot e epos rtemp st st1 st' t : works e -> room st st1 rtemp ->
  compile_as ot e epos rtemp st1 = COk (st', t) -> does [WValue None ot e] st st'.
Proof.
  intros WK RM CE W0. pose proof RM as (A1 & A2 & A3 & A4).
  destruct (compile_as_frame ot e epos rtemp st1 st' t CE) as [[G1 N1] L1]; [rewrite A1; exact W0|].
  rewrite A1 in G1, L1. split; [exact G1|].
  intros new base reg gs c m s r s' LD FI (PC & HD & LA & TP & BL) DV. apply delivers_one in DV. inversion FI as [|? ? FE _]; subst.
  assert (EV : exists q, evals_as s ot e q s' /\ r = match q with Ok d => Ok [GValue d] | Err x => Err x end).
  { inversion DV as [? ? ? ? d ? E| | ? ? ? ? ? x ? E| | |]; subst; [exists (Ok d)|exists (Err x)]; auto. }
  destruct EV as (q & EV & ->). cbn [fine_want] in FE.
  destruct (value_sim ot e epos base (base + length gs) _ reg st st1 st' t gs c m s q s' WK RM CE W0 LD FE PC HD LA BL
              ltac:(lia) eq_refl ltac:(lia) EV) as [P|P]; [left; exact P|right].
  destruct q as [d|x]; [|exact P]. destruct P as (c' & m' & R & P & H' & LA' & ST).
  exists c', m'. split; [exact R|]. pose proof (greach_top _ _ _ _ _ _ _ _ ls (snd st') R) as TT.
  pose proof (temp_index c' _ (snd st) eq_refl) as RI. rewrite (greach_top _ _ _ _ _ _ _ _ ls (snd st) R) in RI.
  split; [exact P|]. split; [exact H'|]. split; [|split].
  - apply laid_snoc; [exact LA'|]. cbn [slot_holds]. rewrite <- TP, <- RI.
    rewrite (stands_type _ _ _ _ _ ST) in ST. exact ST.
  - rewrite app_length. cbn [length]. rewrite TT. unfold top_slot in *. rewrite N1, A2. lia.
  - rewrite (greach_fp _ _ _ _ _ _ _ _ R). exact BL.
Qed.

(** What an instruction puts after the arguments so far. *)
Lemma write_next base pos reg st st1 st' rtemp i raw g gs c m s : room st st1 rtemp -> fst st' = emit i pos (fst st1) ->
  ts_next (snd st') = ts_next (snd st1) -> i <> INop -> gwf (fst st) -> loaded (fst st') (next_pc (fst st)) ->
  dispatch powf img c m i = RNext (Vm_Model.next_pc (set_reg c rtemp raw)) m ->
  arrived base st gs c m s -> (forall c', c_fp c' = c_fp c -> slot_holds L ls cs c' m raw g) ->
  exists c' m', greach base reg c m c' m' /\ arrived base st' (gs ++ [g]) c' m' s.
Proof.
  intros RM E1 E2 NI W0 LD D (PC & HD & LA & TP & BL) SH. pose proof RM as (A1 & A2 & A3 & A4).
  pose proof (temp_index c _ _ A3) as RI.
  assert (F : fetched img (c_pc c) i).
  { rewrite PC, <- A1. rewrite E1 in LD. rewrite <- A1 in LD. eapply loaded_at; [exact LD|apply le_n|exact NI]. }
  destruct (gwrite base reg rtemp c m s i raw HD F D (temp_dest _ _ A3)) as [R H']; [right; lia|].
  destruct (gwrite (base + length gs) rtemp rtemp c m s i raw HD F D (temp_dest _ _ A3)) as [R2 _]; [left; reflexivity|].
  eexists _, m. split; [exact R|]. split; [|split; [exact H'|split; [|split]]].
  - rewrite E1, emit_pc, A1. cbn. rewrite PC. lia.
  - apply laid_snoc; [eapply laid_kept; [exact LA|exact R2|lia|lia|lia]|].
    rewrite <- TP, <- RI. change (slot_holds L ls cs (Vm_Model.next_pc (set_reg c rtemp raw)) m
      (get_reg (Vm_Model.next_pc (set_reg c rtemp raw)) rtemp) g). rewrite get_written. apply SH. reflexivity.
  - rewrite app_length. cbn [length]. unfold top_slot in *. cbn. rewrite E2, A2. lia.
  - exact BL.
Qed.

Lemma does_missing sep pos rtemp st st1 st' : room st st1 rtemp ->
  fst st' = emit (ILoadInteger rtemp (vararg_make (VMissing sep))) pos (fst st1) ->
  ts_next (snd st') = ts_next (snd st1) -> does [WMissing sep] st st'.
Proof.
  intros RM E1 E2 W0. pose proof RM as (A1 & _). split.
  { rewrite E1, A1. apply grows_emit; [exact W0|apply le_n]. }
  intros new base reg gs c m s r s' LD FI AR DV. apply delivers_one in DV. inversion DV; subst.
  right. eapply write_next; try eassumption; [discriminate|reflexivity|]. intros c' _. reflexivity.
Qed.

(** The tag of a value that is already there. *)
Lemma tag_last base reg (st3 st' : est) pos tag tg g gs c m s : dest tag -> reg_index c tag = base + length gs ->
  fst st' = emit (ILoadInteger tag (vararg_make tg)) pos (fst st3) -> loaded (fst st') (next_pc (fst st3)) ->
  c_pc c = next_pc (fst st3) -> holding ls skip c m s -> laid ls cs c m base gs ->
  slot_holds L ls cs c m (slot c (base + length gs + 1)) g -> top_slot ls c (snd st') = base + length gs + 2 ->
  c_fp c + id_len (ls_locals ls) <= base ->
  exists c' m', greach base reg c m c' m' /\ arrived base st' (gs ++ [GTag tg; g]) c' m' s.
Proof.
  intros DT RI E1 LD PC HD LA SH TP BL.
  assert (F : fetched img (c_pc c) (ILoadInteger tag (vararg_make tg))).
  { rewrite PC. rewrite E1 in LD. eapply loaded_at; [exact LD|apply le_n|discriminate]. }
  destruct (gwrite base reg tag c m s _ _ HD F eq_refl DT) as [R H']; [right; lia|].
  destruct (gwrite (base + length gs + 2) tag tag c m s _ _ HD F eq_refl DT) as [R2 _]; [left; reflexivity|].
  eexists _, m. split; [exact R|]. split; [|split; [exact H'|split; [|split]]].
  - rewrite E1, emit_pc. cbn. rewrite PC. lia.
  - change (gs ++ [GTag tg; g]) with (gs ++ [GTag tg] ++ [g]). rewrite app_assoc. apply laid_snoc; [apply laid_snoc|].
    + eapply laid_kept; [exact LA|exact R2|lia|lia|lia].
    + rewrite <- RI. cbn [slot_holds].
      change (get_reg (Vm_Model.next_pc (set_reg c tag (vararg_make tg))) tag = vararg_make tg). apply get_written.
    + rewrite app_length. cbn [length]. rewrite Nat.add_assoc. destruct R2 as (_ & _ & _ & R2).
      rewrite R2; [|lia|lia|right; left; lia].
      destruct g as [d|t|k0 t0]; cbn [slot_holds] in *; auto.
  - rewrite app_length. cbn [length]. unfold top_slot in *. cbn. lia.
  - exact BL.
Qed.

Lemma does_tagged ot e epos sep pos tag rtemp st st1 st2 st3 st' t : works e -> room st st1 tag -> room st1 st2 rtemp ->
  compile_as ot e epos rtemp st2 = COk (st3, t) ->
  fst st' = emit (ILoadInteger tag (vararg_make (VImmediate sep t))) pos (fst st3) ->
  ts_next (snd st') = ts_next (snd st3) -> does [WValue (Some sep) ot e] st st'.
Proof.
  intros WK RM RM2 CE E1 E2 W0. pose proof RM as (A1 & A2 & A3 & A4). pose proof RM2 as (B1 & B2 & B3 & B4).
  destruct (compile_as_frame ot e epos rtemp st2 st3 t CE) as [[G1 N1] L1]; [rewrite B1, A1; exact W0|].
  rewrite B1, A1 in G1, L1. assert (W3 : gwf (fst st3)) by (eapply grows_gwf; eassumption).
  split. { eapply grows_trans; [exact G1|]. rewrite E1. apply grows_emit; [exact W3|lia]. }
  intros new base reg gs c m s r s' LD FI (PC & HD & LA & TP & BL) DV. apply delivers_one in DV. pose proof (Forall_inv FI) as FE.
  assert (EV : exists q, evals_as s ot e q s' /\
            r = match q with Ok d => Ok [GTag (VImmediate sep (cdatum_etype d)); GValue d] | Err x => Err x end).
  { inversion DV as [|? ? ? ? ? d ? E| ? ? ? ? ? x ? E| | |]; subst; [exists (Ok d)|exists (Err x)]; auto. }
  destruct EV as (q & EV & ->). cbn [fine_want] in FE.
  assert (LD3 : loaded (fst st3) (next_pc (fst st))).
  { rewrite E1 in LD. eapply loaded_emit; [exact LD|exact W3|lia]. }
  pose proof (room_top c _ _ _ RM) as T1.
  rewrite <- A1 in W0, LD3, PC.
  destruct (value_sim ot e epos base (base + length gs) rtemp reg st1 st2 st3 t gs c m s q s' WK RM2 CE W0 LD3 FE PC HD LA BL
              ltac:(lia) eq_refl ltac:(lia) EV) as [P|P]; [left; exact P|right].
  destruct q as [d|x]; [|exact P]. destruct P as (c1 & m1 & R & P & H' & LA' & ST).
  pose proof (greach_fp _ _ _ _ _ _ _ _ R) as FP.
  pose proof (stands_type _ _ _ _ _ ST) as TY. subst t.
  destruct (tag_last base reg st3 st' pos tag (VImmediate sep (cdatum_etype d)) (GValue d) gs c1 m1 s' (temp_dest _ _ A3)
     ltac:(rewrite (temp_index c1 _ _ A3); unfold top_slot in *; lia) E1
     ltac:(eapply loaded_after; [exact LD|lia]) P H' LA') as (c2 & m2 & R2 & AR).
  - cbn [slot_holds].
    replace (base + length gs + 1) with (reg_index c1 rtemp); [exact ST|].
    rewrite (temp_index c1 _ _ B3). unfold top_slot in *. lia.
  - unfold top_slot in *. rewrite E2, N1, B2, A2. lia.
  - lia.
  - exists c2, m2. split; [eapply greach_trans; eassumption|exact AR].
Qed.

Lemma lookup_ref_ok md ra df v vpos pos q t : lookup_ref ls md ra df v vpos pos = COk (q, t) ->
  exists p, get_local_or_global ls v = Ok (q, p) /\ t = match p with PArray t _ => t | PScalar t => t end.
Proof.
  unfold lookup_ref. destruct (get_local_or_global ls v) as [[r0 [t0 n0|t0]]|[x|x|x|x w]] eqn:G; try discriminate.
  - destruct ra; [|discriminate]. intros H. apply COk_inj, pair_inj in H as [<- <-]. eexists. split; reflexivity.
  - destruct ra; [discriminate|]. intros H. apply COk_inj, pair_inj in H as [<- <-]. eexists. split; reflexivity.
  - destruct df; [|discriminate]. destruct (get_callable _ _); discriminate.
Qed.

Lemma load_ref c m s v q p t rtemp : get_local_or_global ls v = Ok (q, p) ->
  t = match p with PArray t _ => t | PScalar t => t end -> holding ls skip c m s ->
  exists raw, dispatch powf img c m (ILoadRegPtr rtemp t q) = RNext (Vm_Model.next_pc (set_reg c rtemp raw)) m /\
    forall c', c_fp c' = c_fp c -> slot_holds L ls cs c' m raw (GRef (ascii_upper (vr_name v)) None).
Proof.
  intros G -> HD. pose proof (kn_lookup _ K v) as KL. rewrite G in KL. specialize (KL (fun x => x)).
  pose proof (by_now_range _ _ _ _ K KL) as RG.
  destruct (tagged_ref_char q (N.of_nat (c_fp c)) (match p with PArray t _ => t | PScalar t => t end)) as (raw & E & _).
  - lia.
  - pose proof (hd_small _ _ _ _ _ _ _ _ HD) as SM. clear -SM. lia.
  - exists raw. split; [cbn [dispatch]; rewrite E; reflexivity|].
    intros c' FP. cbn [slot_holds]. exists v, q, p. split; [reflexivity|]. split; [exact KL|]. rewrite FP. split; [exact E|discriminate].
Qed.

Lemma does_ref md ra df v vpos bpos q t pos rtemp st st1 st' : lookup_ref ls md ra df v vpos bpos = COk (q, t) -> room st st1 rtemp ->
  fst st' = emit (ILoadRegPtr rtemp t q) pos (fst st1) -> ts_next (snd st') = ts_next (snd st1) ->
  does [WRef None v] st st'.
Proof.
  intros LR RM E1 E2 W0. pose proof RM as (A1 & _). split.
  { rewrite E1, A1. apply grows_emit; [exact W0|apply le_n]. }
  apply lookup_ref_ok in LR as (p & G & TY).
  intros new base reg gs c m s r s' LD FI AR DV. apply delivers_one in DV. inversion DV; subst r. subst.
  destruct (load_ref c m s' v q p _ rtemp G eq_refl) as (raw & D & SH); [apply AR|].
  right. eapply write_next; try eassumption; discriminate.
Qed.

Lemma does_tagged_ref md ra df v vpos bpos q t sep pos pos2 tag rtemp st st1 st2 st3 st' :
  lookup_ref ls md ra df v vpos bpos = COk (q, t) -> room st st1 tag -> room st1 st2 rtemp ->
  fst st3 = emit (ILoadRegPtr rtemp t q) pos2 (fst st2) -> ts_next (snd st3) = ts_next (snd st2) ->
  fst st' = emit (ILoadInteger tag (vararg_make (VPointer sep))) pos (fst st3) -> ts_next (snd st') = ts_next (snd st3) ->
  does [WRef (Some sep) v] st st'.
Proof.
  intros LR RM RM2 E1 E2 E3 E4 W0. pose proof RM as (A1 & A2 & A3 & A4). pose proof RM2 as (B1 & B2 & B3 & B4).
  assert (G3 : grows (next_pc (fst st)) (fst st) (fst st3)).
  { rewrite E1, B1, A1. apply grows_emit; [exact W0|apply le_n]. }
  assert (W3 : gwf (fst st3)) by (eapply grows_gwf; eassumption).
  pose proof (gr_len _ _ _ G3) as L3.
  split. { eapply grows_trans; [exact G3|]. rewrite E3. apply grows_emit; [exact W3|exact L3]. }
  apply lookup_ref_ok in LR as (p & G & TY).
  intros new base reg gs c m s r s' LD FI (PC & HD & LA & TP & BL) DV. apply delivers_one in DV. inversion DV; subst r. subst s0 s' sep0 v0.
  destruct (load_ref c m s v q p t rtemp G TY HD) as (raw & D & SH).
  assert (LD3 : loaded (fst st3) (next_pc (fst st))).
  { rewrite E3 in LD. eapply loaded_emit; [exact LD|exact W3|lia]. }
  assert (F : fetched img (c_pc c) (ILoadRegPtr rtemp t q)).
  { rewrite PC, <- A1, <- B1. rewrite E1 in LD3. rewrite <- A1, <- B1 in LD3. eapply loaded_at; [exact LD3|apply le_n|discriminate]. }
  pose proof (temp_index c _ _ B3) as RI. pose proof (room_top c _ _ _ RM) as T1.
  destruct (gwrite base reg rtemp c m s _ raw HD F D (temp_dest _ _ B3)) as [R H']; [right; lia|].
  destruct (gwrite (base + length gs) rtemp rtemp c m s _ raw HD F D (temp_dest _ _ B3)) as [R2 _]; [left; reflexivity|].
  set (c1 := Vm_Model.next_pc (set_reg c rtemp raw)) in *.
  destruct (tag_last base reg st3 st' pos tag (VPointer sep) (GRef (ascii_upper (vr_name v)) None) gs c1 m s (temp_dest _ _ A3)) as (c2 & m2 & R3 & AR).
  - rewrite (temp_index c1 _ _ A3). unfold top_slot in *. cbn. lia.
  - exact E3.
  - eapply loaded_after; [exact LD|exact L3].
  - rewrite E1, emit_pc, B1, A1. cbn. rewrite PC. lia.
  - exact H'.
  - eapply laid_kept; [exact LA|exact R2|lia|lia|lia].
  - replace (base + length gs + 1) with (reg_index c1 rtemp).
    2: { rewrite (temp_index c1 _ _ B3). unfold top_slot in *. cbn. lia. }
    change (slot c1 (reg_index c1 rtemp)) with (get_reg c1 rtemp). unfold c1 at 2. rewrite get_written. apply SH. reflexivity.
  - unfold top_slot in *. rewrite E4, E2, B2, A2. cbn. lia.
  - exact BL.
  - right. subst k. exists c2, m2. split; [eapply greach_trans; eassumption|exact AR].
Qed.

Definition ast (a : argst) : est := snd (fst a).
Definition nl (a : argst) : Prop := sc_nlocals (fst (fst a)) = N.of_nat (id_len (ls_locals ls)).
Definition starts (b : N) (a : argst) : Prop := sc_base (fst (fst a)) = b.

Lemma arg_alloc_sim pos a r a' : arg_alloc pos a = COk (r, a') -> nl a ->
  room (ast a) (ast a') r /\ nl a' /\ sc_base (fst (fst a')) = sc_base (fst (fst a)) /\ length (snd a') = length (snd a) + 1.
Proof.
  destruct a as [[s st] l]. unfold arg_alloc, nl, ast. cbn [fst snd]. intros H NL.
  apply bind_ok in H as ([[r0 s0] st0] & H & E). apply COk_inj, pair_inj in E as [<- <-]. cbn [fst snd].
  apply alloc_ok in H as (A1 & A2 & A3 & A4 & A5 & A6 & A7). rewrite NL in A3, A6. unfold room. rewrite app_length. auto 10.
Qed.
Lemma arg_compile_as_sim e epos r t a a' : arg_compile_as (compile_expr ls e) epos r t a = COk a' ->
  compile_as (Some t) e epos r (ast a) = COk (ast a', t) /\ (fst (fst a') = fst (fst a) /\ snd a' = snd a).
Proof.
  destruct a as [[s st] l]. unfold arg_compile_as, ast, compile_as. cbn [fst snd]. intros H.
  apply bind_ok in H as (st0 & -> & E). apply COk_inj in E as <-. auto.
Qed.
Lemma arg_compile_sim e epos r t a a' : arg_compile (compile_expr ls e) r a = COk (a', t) ->
  compile_as None e epos r (ast a) = COk (ast a', t) /\ (fst (fst a') = fst (fst a) /\ snd a' = snd a).
Proof.
  destruct a as [[s st] l]. unfold arg_compile, ast, compile_as. cbn [fst snd]. intros H.
  apply bind_ok in H as ([st0 t0] & -> & E). apply COk_inj, pair_inj in E as [<- <-]. auto.
Qed.
Lemma arg_emit_sim i pos a : fst (ast (arg_emit i pos a)) = emit i pos (fst (ast a)) /\
  snd (ast (arg_emit i pos a)) = snd (ast a) /\ fst (fst (arg_emit i pos a)) = fst (fst a) /\ snd (arg_emit i pos a) = snd a.
Proof. destruct a as [[s st] l]. auto. Qed.

(** How many things an argument is given as. *)
Definition width (w : want) : nat :=
  match w with WMissing _ | WValue None _ _ | WRef None _ => 1 | WValue (Some _) _ _ | WRef (Some _) _ => 2 end.
Definition widths (ws : list want) : nat := list_sum (map width ws).
Lemma delivers_width new ws : forall s gs s', delivers new s ws (Ok gs) s' -> length gs = widths ws.
Proof.
  induction ws as [|w ws IH]; intros s gs s' H; inversion H as [|? ? ? ? g s1 gs1 ? GV D| |]; subst; [reflexivity|].
  rewrite app_length, (IH _ _ _ D). change (widths (w :: ws)) with (width w + widths ws). f_equal.
  inversion GV; subst; reflexivity.
Qed.

(** What each step of the compilation of arguments leaves to the next one. *)
Definition follows (ws : list want) (a a' : argst) : Prop :=
  nl a -> does ws (ast a) (ast a') /\ nl a' /\ sc_base (fst (fst a')) = sc_base (fst (fst a)) /\
  length (snd a') = length (snd a) + widths ws.
Lemma follows_none a : follows [] a a.
Proof. intros H. split; [apply does_none|]. split; [exact H|]. split; [reflexivity|apply plus_n_O]. Qed.
Lemma follows_app ws1 ws2 a a1 a2 : follows ws1 a a1 -> follows ws2 a1 a2 -> follows (ws1 ++ ws2) a a2.
Proof.
  intros F1 F2 H. destruct (F1 H) as (A1 & A2 & A3 & A4). destruct (F2 A2) as (B1 & B2 & B3 & B4).
  split; [eapply does_app; eassumption|]. split; [exact B2|]. split; [congruence|].
  unfold widths in *. rewrite map_app, list_sum_app. clear -A4 B4. lia.
Qed.

Lemma follows_value ot e epos pos r a a1 a2 t : works e -> arg_alloc pos a = COk (r, a1) ->
  compile_as ot e epos r (ast a1) = COk (ast a2, t) -> fst (fst a2) = fst (fst a1) /\ snd a2 = snd a1 -> follows [WValue None ot e] a a2.
Proof.
  intros WK AL CE [ES EL] H. destruct (arg_alloc_sim _ _ _ _ AL H) as (R & N1 & B & C).
  split; [eapply does_value; eassumption|]. unfold nl in *. rewrite ES, EL. auto.
Qed.
Lemma follows_tagged ot e epos pos pos1 pos2 sep tag r a a1 a2 a3 t : works e -> arg_alloc pos a = COk (tag, a1) ->
  arg_alloc pos1 a1 = COk (r, a2) -> compile_as ot e epos r (ast a2) = COk (ast a3, t) -> fst (fst a3) = fst (fst a2) /\ snd a3 = snd a2 ->
  follows [WValue (Some sep) ot e] a (arg_emit (ILoadInteger tag (vararg_make (VImmediate sep t))) pos2 a3).
Proof.
  intros WK AL AL2 CE [ES EL] H. destruct (arg_alloc_sim _ _ _ _ AL H) as (R & N1 & B & C).
  destruct (arg_alloc_sim _ _ _ _ AL2 N1) as (R2 & N2 & B2 & C2).
  destruct (arg_emit_sim (ILoadInteger tag (vararg_make (VImmediate sep t))) pos2 a3) as (E1 & E2 & E3 & E4).
  split; [eapply does_tagged; try eassumption; rewrite E2; reflexivity|]. unfold nl in *. rewrite E3, E4, ES, EL.
  split; [exact N2|split; [congruence|]]. cbn. clear -C C2. lia.
Qed.
Lemma follows_missing pos pos2 sep tag a a1 : arg_alloc pos a = COk (tag, a1) ->
  follows [WMissing sep] a (arg_emit (ILoadInteger tag (vararg_make (VMissing sep))) pos2 a1).
Proof.
  intros AL H. destruct (arg_alloc_sim _ _ _ _ AL H) as (R & N1 & B & C).
  destruct (arg_emit_sim (ILoadInteger tag (vararg_make (VMissing sep))) pos2 a1) as (E1 & E2 & E3 & E4).
  split; [eapply does_missing; try eassumption; rewrite E2; reflexivity|]. unfold nl in *. rewrite E3, E4. auto.
Qed.
Lemma follows_ref md ra df v vpos bpos q t pos pos2 r a a1 : lookup_ref ls md ra df v vpos bpos = COk (q, t) ->
  arg_alloc pos a = COk (r, a1) -> follows [WRef None v] a (arg_emit (ILoadRegPtr r t q) pos2 a1).
Proof.
  intros LR AL H. destruct (arg_alloc_sim _ _ _ _ AL H) as (R & N1 & B & C).
  destruct (arg_emit_sim (ILoadRegPtr r t q) pos2 a1) as (E1 & E2 & E3 & E4).
  split; [eapply does_ref; try eassumption; rewrite E2; reflexivity|]. unfold nl in *. rewrite E3, E4. auto.
Qed.
Lemma follows_tagged_ref md ra df v vpos bpos q t sep pos pos1 pos2 pos3 tag r a a1 a2 :
  lookup_ref ls md ra df v vpos bpos = COk (q, t) -> arg_alloc pos a = COk (tag, a1) -> arg_alloc pos1 a1 = COk (r, a2) ->
  follows [WRef (Some sep) v] a (arg_emit (ILoadInteger tag (vararg_make (VPointer sep))) pos2 (arg_emit (ILoadRegPtr r t q) pos3 a2)).
Proof.
  intros LR AL AL2 H. destruct (arg_alloc_sim _ _ _ _ AL H) as (R & N1 & B & C).
  destruct (arg_alloc_sim _ _ _ _ AL2 N1) as (R2 & N2 & B2 & C2).
  destruct (arg_emit_sim (ILoadRegPtr r t q) pos3 a2) as (E1 & E2 & E3 & E4).
  destruct (arg_emit_sim (ILoadInteger tag (vararg_make (VPointer sep))) pos2 (arg_emit (ILoadRegPtr r t q) pos3 a2)) as (F1 & F2 & F3 & F4).
  split; [eapply does_tagged_ref; try eassumption; [rewrite E2|rewrite F2]; reflexivity|].
  unfold nl in *. rewrite F3, F4, E3, E4. split; [exact N2|split; [congruence|]]. cbn. clear -C C2. lia.
Qed.

Ltac arg_step H := let x := fresh "x" in apply bind_ok in H as (x & ?X & H).

Lemma singular_sim md key syn end_ok arg cargs a rest a' :
  singular_arg ls md key syn end_ok (with_closure ls arg :: cargs) a = COk (rest, a') -> arg_all works arg ->
  rest = cargs /\ follows (fixed_want syn arg) a a'.
Proof.
  destruct arg as [[[e|] sep] sp]; cbn [arg_all with_closure].
  2: { destruct syn as [n t ss|n ra df ss|n t ss|n am ss]; cbn [singular_arg arg_pos_of]; intros H _; try discriminate H;
         try (cbn [bind] in H); apply bind_ok in H as ([tag a1] & AL & H); cbn [bind] in H;
         apply bind_ok in H as (_ & _ & H); apply COk_inj, pair_inj in H as [<- <-];
         (split; [reflexivity|]); cbn [fixed_want]; eapply follows_missing; exact AL. }
  destruct syn as [n t ss|n ra df ss|n t ss|n am ss]; cbn [singular_arg arg_pos_of fixed_want]; intros H WK.
  - apply bind_ok in H as ([r a1] & AL & H). apply bind_ok in H as (a2 & CA & H). apply bind_ok in H as (_ & _ & H).
    apply COk_inj, pair_inj in H as [<- <-]. split; [reflexivity|]. apply arg_compile_as_sim in CA as [CA E].
    eapply follows_value; eassumption.
  - destruct e; try discriminate H. apply bind_ok in H as ([q t] & LR & H). apply bind_ok in H as ([r a1] & AL & H).
    apply bind_ok in H as (_ & _ & H). apply COk_inj, pair_inj in H as [<- <-]. split; [reflexivity|].
    eapply follows_ref; eassumption.
  - apply bind_ok in H as ([tag a1] & AL & H). apply bind_ok in H as ([tg a3] & H1 & H).
    apply bind_ok in H1 as ([r a2] & AL2 & H1). apply bind_ok in H1 as (a4 & CA & H1).
    apply COk_inj, pair_inj in H1 as [<- <-]. apply bind_ok in H as (_ & _ & H). apply COk_inj, pair_inj in H as [<- <-].
    split; [reflexivity|]. apply arg_compile_as_sim in CA as [CA E]. eapply follows_tagged; eassumption.
  - cbn [bind] in H. apply bind_ok in H as ([tag a1] & AL & H). apply bind_ok in H as ([tg a3] & H1 & H).
    apply bind_ok in H1 as ([r a2] & AL2 & H1). apply bind_ok in H1 as ([a4 t] & CA & H1).
    apply COk_inj, pair_inj in H1 as [<- <-]. apply bind_ok in H as (_ & _ & H). apply COk_inj, pair_inj in H as [<- <-].
    split; [reflexivity|]. apply (arg_compile_sim e (start_pos e)) in CA as [CA E]. eapply follows_tagged; eassumption.
Qed.

Lemma singulars_sim md key one syns : forall args a rest a',
  singular_args ls md key one syns (map (with_closure ls) args) a = COk (rest, a') -> length syns <= length args ->
  Forall (arg_all works) args ->
  rest = map (with_closure ls) (skipn (length syns) args) /\ follows (fixed_wants syns args) a a'.
Proof.
  induction syns as [|syn syns IH]; intros args a rest a' H LE F; cbn [singular_args] in H.
  - apply COk_inj, pair_inj in H as [<- <-]. split; [reflexivity|apply follows_none].
  - destruct args as [|arg args]; [cbn in LE; lia|]. cbn [map] in H. apply bind_ok in H as ([r a1] & H1 & H).
    inversion F as [|? ? F1 F2]; subst.
    apply singular_sim in H1 as [-> S1]; [|exact F1]. apply IH in H as [-> S2]; [|cbn in LE; lia|exact F2].
    split; [reflexivity|]. cbn [fixed_wants]. eapply follows_app; eassumption.
Qed.

Lemma plain_sim md rp t args : untagged rp = true -> rp_type rp = RepTyped t -> forall a a',
  plain_args md (rp_sep rp) t (map (with_closure ls) args) a = COk a' -> Forall (arg_all works) args ->
  follows (flat_map (repeated_want rp) args) a a'.
Proof.
  intros U RT. induction args as [|[[[e|] sep] sp] args IH]; intros a a' H F; cbn [map with_closure plain_args arg_pos_of] in H.
  - apply COk_inj in H as <-. apply follows_none.
  - apply bind_ok in H as (_ & _ & H). apply bind_ok in H as ([r a1] & AL & H). apply bind_ok in H as (a2 & CA & H).
    inversion F as [|? ? F1 F2]; subst. apply IH in H; [|exact F2]. apply arg_compile_as_sim in CA as [CA E].
    cbn [flat_map]. eapply follows_app; [|exact H]. cbn [repeated_want]. rewrite RT, U.
    eapply follows_value; eassumption.
  - apply bind_ok in H as (_ & _ & H). discriminate H.
Qed.

Lemma tagged_sim md rp args : untagged rp = false -> forall a a',
  tagged_args ls md rp (map (with_closure ls) args) a = COk a' -> Forall (arg_all works) args ->
  follows (flat_map (repeated_want rp) args) a a'.
Proof.
  intros U. induction args as [|[[[e|] sep] sp] args IH]; intros a a' H F; cbn [map with_closure tagged_args arg_pos_of] in H.
  - apply COk_inj in H as <-. apply follows_none.
  - apply bind_ok in H as ([tag a1] & AL & H). apply bind_ok in H as (_ & _ & H). apply bind_ok in H as ([tg a3] & H1 & H).
    inversion F as [|? ? F1 F2]; subst. apply IH in H; [|exact F2]. cbn [flat_map]. eapply follows_app; [|exact H].
    cbn [repeated_want]. rewrite U. destruct (rp_type rp) as [|t|].
    + apply bind_ok in H1 as ([r a2] & AL2 & H1). apply bind_ok in H1 as ([a4 t] & CA & H1).
      apply COk_inj, pair_inj in H1 as [<- <-]. apply (arg_compile_sim e (start_pos e)) in CA as [CA E]. eapply follows_tagged; eassumption.
    + apply bind_ok in H1 as ([r a2] & AL2 & H1). apply bind_ok in H1 as (a4 & CA & H1).
      apply COk_inj, pair_inj in H1 as [<- <-]. apply arg_compile_as_sim in CA as [CA E]. eapply follows_tagged; eassumption.
    + destruct e; try discriminate H1. apply bind_ok in H1 as ([q t] & LR & H1). apply bind_ok in H1 as ([r a2] & AL2 & H1).
      apply COk_inj, pair_inj in H1 as [<- <-]. eapply follows_tagged_ref; eassumption.
  - apply bind_ok in H as ([tag a1] & AL & H). apply bind_ok in H as (_ & _ & H). apply bind_ok in H as ([tg a3] & H1 & H).
    inversion F as [|? ? F1 F2]; subst. apply IH in H; [|exact F2]. cbn [flat_map]. eapply follows_app; [|exact H].
    destruct (rp_allow_missing rp); [|discriminate H1]. apply COk_inj, pair_inj in H1 as [<- <-].
    cbn [repeated_want]. eapply follows_missing; eassumption.
Qed.

Lemma args_sim md key args st st' r l : compile_args ls md key (map (with_closure ls) args) st = COk (st', r, l) ->
  Forall (arg_all works) args ->
  exists syn st1, chosen md (length args) syn /\ does (wants syn args) st st1 /\ fst st' = fst st1 /\
    r = (64 + N.of_nat (id_len (ls_locals ls)) + ts_next (snd st))%N /\ (r < 256)%N /\ length l = widths (wants syn args).
Proof.
  intros H F. unfold compile_args in H. rewrite map_length in H.
  destruct (find_syntax md (length args)) as [syn|] eqn:FS; [|discriminate H].
  apply find_chosen in FS. pose proof FS as (_ & _ & _ & TK & _). unfold takes in TK.
  apply bind_ok in H as (sc & OS & H). apply open_ok in OS as (_ & OB & NL).
  apply bind_ok in H as ([rest a1] & H1 & H).
  apply singulars_sim in H1 as [-> S1]; [|destruct (sy_repeated syn); lia|exact F].
  apply bind_ok in H as ([rest2 a2] & H2 & H).
  assert (X : follows (wants syn args) (sc, st, []) a2).
  { unfold wants. eapply follows_app; [exact S1|]. destruct (sy_repeated syn) as [rp|].
    2: { apply COk_inj, pair_inj in H2 as [_ <-]. apply follows_none. }
    assert (F2 : Forall (arg_all works) (skipn (length (sy_singular syn)) args)).
    { rewrite <- (firstn_skipn (length (sy_singular syn)) args) in F. apply Forall_app in F as [_ F]. exact F. }
    match type of H2 with (if ?b then _ else _) = _ => destruct b; [discriminate H2|] end.
    set (rest := skipn (length (sy_singular syn)) args) in *.
    assert (PL : forall t, untagged rp = true -> rp_type rp = RepTyped t ->
       (let* a := plain_args md (rp_sep rp) t (map (with_closure ls) rest) a1 in COk ([] : list carg, a)) = COk (rest2, a2) ->
       follows (repeated_wants rp rest) a1 a2).
    { intros t U RT Q. apply bind_ok in Q as (a3 & Q & E). apply COk_inj, pair_inj in E as [_ <-].
      pose proof (plain_sim _ _ _ _ U RT _ _ Q F2) as P. unfold repeated_wants. rewrite U. destruct rest; exact P. }
    assert (TG : untagged rp = false ->
       (let* a := match map (with_closure ls) rest with
                  | [] => let* (r, a) := arg_alloc key a1 in
                          COk (arg_emit (ILoadInteger r (vararg_make (VMissing SepEnd))) key a)
                  | _ => COk a1
                  end in
        let* a := tagged_args ls md rp (map (with_closure ls) rest) a in COk ([] : list carg, a)) = COk (rest2, a2) ->
       follows (repeated_wants rp rest) a1 a2).
    { intros U Q. apply bind_ok in Q as (a3 & Q1 & Q). apply bind_ok in Q as (a4 & Q & E). apply COk_inj, pair_inj in E as [_ <-].
      pose proof (tagged_sim _ _ _ U _ _ Q F2) as P. unfold repeated_wants. rewrite U. destruct rest as [|x rest]; cbn [map] in Q1.
      - cbn [flat_map] in P. apply bind_ok in Q1 as ([r0 a5] & AL & E). apply COk_inj in E as <-.
        change [WMissing SepEnd] with ([WMissing SepEnd] ++ []). eapply follows_app; [|exact P].
        eapply follows_missing; exact AL.
      - apply COk_inj in Q1 as <-. exact P. }
    unfold untagged in PL, TG. destruct (rp_type rp) as [|t|], (rp_allow_missing rp), (rp_sep rp); auto.
    apply (PL t); auto. }
  destruct X as (D & N2 & B2 & LN); [exact NL|].
  destruct rest2; [|discriminate H]. destruct a2 as [[s2 st2] l2]. cbn [fst snd ast] in *.
  destruct (scope_first s2) as [r0|e] eqn:SF; [|discriminate H].
  apply COk_inj, pair_inj in H as [H ->]. apply pair_inj in H as [<- <-].
  exists syn, st2. split; [exact FS|]. split; [exact D|]. split; [reflexivity|].
  unfold scope_first, temp_register, register_local, max_global, max_register, u8_ids in SF. unfold nl in N2. cbn [fst] in N2.
  rewrite N2, B2, OB in SF. destruct (_ <? 256)%N; [|discriminate SF].
  destruct (N.leb_spec (N.of_nat (id_len (ls_locals ls)) + ts_next (snd st) + 64) 255); [|discriminate SF].
  injection SF as <-. split; [lia|split; [lia|exact LN]].
Qed.

Lemma integers_sim args : forall sc pos first st o sc' st',
  integer_exprs (map (fun a : carg => fst (fst a)) (map (with_closure ls) args)) sc pos first st = COk (o, sc', st') ->
  sc_nlocals sc = N.of_nat (id_len (ls_locals ls)) -> Forall (arg_all works) args -> gwf (fst st) ->
  does (subscripts (arg_exprs args)) st st' /\ length (arg_exprs args) = length args /\
  (args <> [] -> (64 + N.of_nat (id_len (ls_locals ls)) + ts_next (snd st) + N.of_nat (length args) <= 256)%N) /\
  o = match first, args with None, _ :: _ => Some (64 + N.of_nat (id_len (ls_locals ls)) + ts_next (snd st))%N | _, _ => first end.
Proof.
  induction args as [|[[[e|] sep] sp] args IH]; intros sc pos first st o sc' st' H NL F W0; cbn [map with_closure fst integer_exprs] in H.
  - apply COk_inj, pair_inj in H as [H <-]. apply pair_inj in H as [<- <-]. split; [apply does_none|].
    split; [reflexivity|]. split; [congruence|]. destruct first; reflexivity.
  - apply bind_ok in H as ([[r s1] st1] & AL & H). apply bind_ok in H as (st2 & CA & H).
    apply alloc_ok in AL as (A1 & A2 & A3 & A4 & A5 & A6 & A7). inversion F as [|? ? F1 F2]; subst.
    rewrite NL in A3.
    assert (RM : room st st1 (64 + N.of_nat (id_len (ls_locals ls)) + ts_next (snd st))).
    { unfold room. rewrite NL in A7. auto. }
    assert (CE : compile_as (Some TInteger) e (start_pos e) (64 + N.of_nat (id_len (ls_locals ls)) + ts_next (snd st)) st1 = COk (st2, TInteger)).
    { unfold compile_as. rewrite NL in CA. rewrite CA. reflexivity. }
    destruct (compile_as_frame _ _ _ _ _ _ _ CE) as [[G1 TN] _]; [rewrite A1; exact W0|].
    assert (W2 : gwf (fst st2)) by (eapply grows_gwf; [exact G1|rewrite A1; exact W0]).
    destruct (IH _ _ _ _ _ _ _ H A3 F2 W2) as (D & LE & B & O).
    split; [|split; [cbn [arg_exprs flat_map app length] in *; unfold arg_exprs in LE; rewrite LE; reflexivity|split]].
    + change (arg_exprs ((Some e, sep, sp) :: args)) with ([e] ++ arg_exprs args). unfold subscripts. rewrite map_app.
      eapply does_app; [|exact D]. eapply does_value; [exact F1|exact RM|exact CE].
    + intros _.
      cbn [length]. rewrite NL in A7. 
      destruct args; [cbn [length]; lia|]. assert (Q : a :: args <> []) by discriminate. specialize (B Q). lia.
    + rewrite O. rewrite NL. destruct first, args; reflexivity.
  - discriminate H.
Qed.

(** ** Calls *)

Lemma fine_call s v p args : fine s (ECall v p args) -> named s true v /\ own_frame v /\ Forall (arg_all (fine s)) args.
Proof.
  unfold fine. cbn [within]. intros [[A B] C]. split; [exact A|]. split; [exact B|]. clear A B.
  induction args as [|[[[e|] sep] q] args IH]; constructor; cbn [arg_all]; auto.
  - apply C.
  - apply IH, C.
Qed.
Lemma fine_symbol s v p : fine s (ESymbol v p) -> clear s v /\ own_frame v.
Proof. intros H. exact H. Qed.

Lemma fine_fixed s syn a : arg_all (fine s) a -> Forall (fine_want s) (fixed_want syn a).
Proof.
  destruct a as [[[e|] sep] q]; cbn [arg_all]; intros H.
  - destruct syn; cbn [fixed_want]; try (apply Forall_cons; [exact H|apply Forall_nil]).
    destruct e; try apply Forall_nil. apply Forall_cons; [exact (proj1 (fine_symbol _ _ _ H))|apply Forall_nil].
  - destruct syn; cbn [fixed_want]; repeat constructor.
Qed.
Lemma fine_repeated s rp a : arg_all (fine s) a -> Forall (fine_want s) (repeated_want rp a).
Proof.
  destruct a as [[[e|] sep] q]; cbn [arg_all repeated_want]; intros H; [|repeat constructor].
  destruct (rp_type rp); try (apply Forall_cons; [exact H|apply Forall_nil]).
  destruct e; try apply Forall_nil. apply Forall_cons; [exact (proj1 (fine_symbol _ _ _ H))|apply Forall_nil].
Qed.
Lemma fine_wants s syn args : Forall (arg_all (fine s)) args -> Forall (fine_want s) (wants syn args).
Proof.
  intros F. unfold wants. apply Forall_app. split.
  - revert args F. induction (sy_singular syn) as [|y ys IH]; intros args F; [constructor|]. destruct args as [|a args]; [constructor|].
    inversion F as [|? ? F1 F2]; subst. cbn [fixed_wants]. apply Forall_app. split; [apply fine_fixed; exact F1|apply IH; exact F2].
  - destruct (sy_repeated syn) as [rp|]; [|constructor].
    assert (F2 : Forall (arg_all (fine s)) (skipn (length (sy_singular syn)) args)).
    { rewrite <- (firstn_skipn (length (sy_singular syn)) args) in F. apply Forall_app in F as [_ F]. exact F. }
    unfold repeated_wants. destruct (skipn (length (sy_singular syn)) args) as [|a rest].
    + destruct (untagged rp); repeat constructor.
    + induction F2 as [|x l X1 X2 IH]; [constructor|]. cbn [flat_map]. apply Forall_app.
      split; [apply fine_repeated; exact X1|exact IH].
Qed.
Lemma fine_subscripts s args : Forall (arg_all (fine s)) args -> Forall (fine_want s) (subscripts (arg_exprs args)).
Proof.
  induction 1 as [|[[[e|] sep] q] args H F IH]; [constructor| |exact IH].
  change (subscripts (arg_exprs ((Some e, sep, q) :: args))) with (WValue None (Some TInteger) e :: subscripts (arg_exprs args)).
  constructor; [exact H|exact IH].
Qed.

(** Variables that are given have values. *)
Lemma gives_refs s w r s' : gives false s w r s' -> forall gs v t, r = Ok gs -> In (GRef (ascii_upper (vr_name v)) t) gs ->
  fine_want s w -> forall q p, get_local_or_global (by_now L ls) v = Ok (q, p) -> skip <> Some q.
Proof.
  intros H gs v t0 E IN FW q p G SK. remember false as new eqn:NW in H. destruct H; try (injection E as <-); try discriminate E; cbn [In] in IN; subst new.
  - destruct IN as [IN|[]]. discriminate IN.
  - destruct IN as [IN|[IN|[]]]; discriminate IN.
  - destruct IN as [IN|[]]. discriminate IN.
  - destruct IN as [IN|[]]. injection IN as IN _. cbn [fine_want] in FW. subst k.
    destruct (FW v q p (eq_sym IN) SK G) as [N1 _]. change symkey with ascii_upper in N1.
    match goal with O : _ \/ _ |- _ => destruct O as [O|O]; [discriminate O|congruence] end.
  - destruct IN as [IN|[IN|[]]]; [discriminate IN|]. injection IN as IN _. cbn [fine_want] in FW. subst k.
    destruct (FW v q p (eq_sym IN) SK G) as [N1 _]. change symkey with ascii_upper in N1.
    match goal with O : _ \/ _ |- _ => destruct O as [O|O]; [discriminate O|congruence] end.
Qed.
Lemma delivers_refs ws : forall s gs s', delivers false s ws (Ok gs) s' -> Forall (fine_want s) ws -> shares_well ls skip gs.
Proof.
  induction ws as [|w ws IH]; intros s gs s' H F v q p t IN G.
  - inversion H; subst. destruct IN.
  - inversion H as [|? ? ? ? g s1 gs1 ? GV D| |]; subst. apply in_app_or in IN as [IN|IN].
    + eapply gives_refs; [exact GV|reflexivity|exact IN|exact (Forall_inv F)|exact G].
    + eapply IH; [exact D| |exact IN|exact G]. eapply Forall_impl; [|exact (Forall_inv_tail F)].
      intros w'. apply fine_want_later. exact (proj1 (proj2 (proj2 evals_local)) _ _ _ _ _ GV).
Qed.

Lemma chosen_same md n syn syn' : chosen md n syn -> chosen md n syn' -> syn = syn'.
Proof. intros A B. apply find_chosen in A, B. congruence. Qed.

Lemma loaded_fixup a f g from : loaded (add_fixup a f g) from -> loaded g from.
Proof.
  intros [A B C D E F A7]. constructor; try assumption.
  - intros a0 reg k X I1. apply (D a0 reg k X). right. exact I1.
  - intros a0 l. destruct (E a0 l) as [E1 E2]. split; intros I1; [apply E1|apply E2]; right; exact I1.
Qed.
Lemma upcall_not_nop md idx r : upcall_instr md idx r <> INop.
Proof. unfold upcall_instr. destruct (md_async md); discriminate. Qed.

Lemma user_site c k md ret n g from pos g2 : md_user md = true -> get_callable (ls_global ls) k = Some md -> loaded g2 from ->
  from <= next_pc g -> c_pc c = next_pc g -> In (next_pc g, FxCall ret k) (g_fixups g2) ->
  g2 = add_fixup (next_pc g) (FxCall ret k) (emit INop pos g) \/
  (exists l, g2 = add_fixup (next_pc g) (FxCall ret k) (set_arg_linecols (next_pc g) l (emit INop pos g))) ->
  gwf g -> call_site c k md ret n /\ next_pc g2 = S (next_pc g) /\ loaded g from.
Proof.
  intros U GC LD LE PC IN E W0. destruct (ld_calls _ _ LD _ _ _ LE IN) as (target & EN & F). split; [|split].
  - eapply Site_user; [exact U|exact EN|rewrite PC; exact F].
  - destruct E as [->|[l ->]]; [|]; exact (emit_pc INop pos g).
  - destruct E as [->|[l ->]].
    + apply loaded_fixup in LD. eapply loaded_emit; [exact LD|exact W0|exact LE].
    + apply loaded_fixup in LD. eapply loaded_before; [|exact LE|exact LD].
      eapply grows_trans; [apply (grows_emit (next_pc g) INop pos g); [exact W0|apply le_n]|apply grows_set_args, le_n].
Qed.

Lemma host_site c k md t ret g g1 idx from pos l g2 : md_user md = false -> get_callable (ls_global ls) k = Some md ->
  get_upcall k t pos g = COk (g1, idx) -> gwf g -> loaded g2 from ->
  g2 = set_arg_linecols (next_pc g1) l (emit (upcall_instr md idx ret) pos g1) \/
  l = [] /\ g2 = emit (upcall_instr md idx ret) pos g1 ->
  from <= next_pc g -> c_pc c = next_pc g ->
  call_site c k md ret (length l) /\ next_pc g2 = S (next_pc g) /\ loaded g from.
Proof.
  intros U GC GU W0 LD G2 LE PC. destruct (grows_upcall (next_pc g) _ _ _ _ _ _ GU W0) as (G1 & C1 & _ & _ & _ & ND).
  pose proof (next_pc_eq _ _ C1) as P1. assert (W1 : gwf g1) by (eapply grows_gwf; eassumption).
  assert (ME : nth_error (g_instrs (emit (upcall_instr md idx ret) pos g1)) (next_pc g1) = Some (mkMeta pos false [])).
  { unfold emit, with_code. cbn [g_instrs]. unfold next_pc. rewrite <- (proj1 W1), nth_error_app2, Nat.sub_diag by apply le_n. reflexivity. }
  assert (X : grows (next_pc g1) g1 g2 /\ next_pc g2 = S (next_pc g1) /\
              nth_error (g_code g2) (next_pc g1) = Some (upcall_instr md idx ret) /\
              exists mt, nth_error (g_instrs g2) (next_pc g1) = Some mt /\ m_args mt = l).
  { assert (GE : grows (next_pc g1) g1 (emit (upcall_instr md idx ret) pos g1)) by (apply grows_emit; [exact W1|apply le_n]).
    destruct G2 as [->|[-> ->]].
    - split; [eapply grows_trans; [exact GE|apply grows_set_args, le_n]|]. split; [apply emit_pc|]. split; [apply emit_at|].
      unfold set_arg_linecols. rewrite ME. cbn [with_code g_instrs]. eexists. split; [apply upd_nth_same|reflexivity].
      apply nth_error_Some. congruence.
    - split; [exact GE|]. split; [apply emit_pc|]. split; [apply emit_at|]. eexists. split; [exact ME|reflexivity]. }
  destruct X as (GG & P2 & CO & mt & MT & <-).
  assert (LD1 : loaded g1 from) by (eapply loaded_before; [exact GG|lia|exact LD]).
  split; [|split].
  - apply (Site_host c k md ret _ idx); [exact U|eapply kn_host; [exact K|exact GC|exact U]| | |].
    + destruct W1 as (_ & _ & [ord W1]). destruct (ld_ups _ _ LD1 _ W1) as [rest ->]. apply ND in W1.
      rewrite nth_error_app1; [exact W1|]. apply nth_error_Some. congruence.
    + rewrite PC, <- P1. apply (ld_code _ _ LD); [lia|exact CO|apply upcall_not_nop].
    + rewrite PC, <- P1. apply (ld_args _ _ LD); [lia|exact MT].
  - lia.
  - eapply loaded_before; [exact G1|exact LE|exact LD1].
Qed.

(** The value of a function, moved to where it is wanted. *)
Lemma move_result lim reg ret t pos g2 from pc c m d s : dest reg -> lim <= reg_index c ret -> reg_index c reg < lim ->
  stands_for cs m t (get_reg c ret) d -> holding ls skip c m s -> c_pc c = next_pc g2 ->
  loaded (emit (IMove reg ret) pos g2) from -> from <= next_pc g2 -> pc = S (next_pc g2) ->
  gsettles pc lim reg t c m (Ok d) s.
Proof.
  intros DS L1 L2 ST HD PC LD LE ->.
  assert (F : fetched img (c_pc c) (IMove reg ret)).
  { rewrite PC. eapply loaded_at; [exact LD|exact LE|discriminate]. }
  destruct (gwrite lim reg reg c m s _ _ HD F eq_refl DS (or_introl eq_refl)) as [R H'].
  right. eexists _, m. split; [exact R|]. split; [cbn; rewrite PC; reflexivity|]. split; [|exact H'].
  rewrite get_written. exact ST.
Qed.

Lemma gsettles_temp pc lim lim' reg ret t c m e s : gsettles pc lim' ret t c m (Err e) s -> lim <= lim' ->
  lim <= reg_index c ret -> gsettles pc lim reg t c m (Err e) s.
Proof.
  intros [S0|S0] L1 L2; [left; exact S0|right; exact S0].
Qed.

Lemma Forall2_len {A B} (R : A -> B -> Prop) l l' : Forall2 R l l' -> length l = length l'.
Proof. induction 1; cbn; congruence. Qed.
Lemma first_bad_invalid dims subs z d : first_bad dims subs z d -> ~ valid_subs dims subs.
Proof.
  intros (d1 & d2 & s1 & s2 & -> & -> & V & B) V2. unfold valid_subs in *.
  apply Forall2_app_inv_l in V2 as (l1 & l2 & V3 & V4 & E).
  assert (l1 = d1 /\ l2 = d :: d2) as [-> ->].
  { assert (LL : length l1 = length d1) by (apply Forall2_len in V3; apply Forall2_len in V; lia).
    clear -E LL. revert l1 LL E. induction d1 as [|x d1 IH]; intros [|y l1] LL E; cbn in *; try discriminate LL; auto.
    injection E as -> E. destruct (IH l1) as [-> ->]; auto. }
  inversion V4; subst. contradiction.
Qed.
Lemma first_bad_unique dims : forall subs z d z' d', first_bad dims subs z d -> first_bad dims subs z' d' -> z = z' /\ d = d'.
Proof.
  unfold first_bad, valid_subs. induction dims as [|x dims IH]; intros subs z d z' d' (d1 & d2 & s1 & s2 & A1 & A2 & V & B) (e1 & e2 & t1 & t2 & B1 & B2 & V' & B').
  - destruct d1; discriminate A1.
  - destruct d1 as [|y d1], e1 as [|y' e1]; cbn [app] in *; injection A1 as <- A1; injection B1 as <- B1.
    + inversion V; subst s1. inversion V'; subst t1. cbn [app] in *. rewrite A2 in B2. injection B2 as -> _. auto.
    + exfalso. inversion V; subst s1. inversion V'; subst. injection B2 as -> _. auto.
    + exfalso. inversion V'; subst t1. inversion V; subst. injection B2 as <- _. auto.
    + inversion V as [|w ? sx ? Q1 Q2]; subst s1. inversion V' as [|w' ? sx' ? Q1' Q2']; subst t1. cbn [app] in *.
      rewrite A2 in B2. injection B2 as _ B2. apply (IH (sx ++ z :: s2)).
      * exists d1, d2, sx, s2. auto.
      * exists e1, e2, sx', t2. auto.
Qed.

(** An element of an array. *)
Lemma element_works v p args arr t0 nd reg st st' t c m s r s' : Forall (arg_all works) args ->
  callable (symkey (vr_name v)) = None -> get_local_or_global ls v = Ok (arr, PArray t0 nd) ->
  array_access ls reg p arr t0 nd (map (with_closure ls) args) st = COk (st', t) ->
  gwf (fst st) -> loaded (fst st') (next_pc (fst st)) -> clear s v -> Forall (arg_all (fine s)) args ->
  holding ls skip c m s -> c_pc c = next_pc (fst st) -> reg_index c reg < top_slot ls c (snd st) -> dest reg ->
  evals s (ECall v p args) r s' ->
  gsettles (next_pc (fst st')) (top_slot ls c (snd st)) reg t c m r s'.
Proof.
  intros FW GN G H W0 LD CL FA HD PC RL DS EV. unfold array_access in H. rewrite map_length in H.
  destruct (Nat.eqb_spec (length args) nd) as [LN|]; [|discriminate H]. cbn [negb] in H.
  apply bind_ok in H as (sc & OS & H). apply open_ok in OS as (_ & _ & NL).
  apply bind_ok in H as ([[first sc1] st1] & IE & H). destruct first as [f|]; [|discriminate H].
  apply COk_inj, pair_inj in H as [<- <-]. cbn [close fst e_emit] in *.
  destruct (integers_sim args _ _ _ _ _ _ _ IE NL FW W0) as (DO & LX & BD & O).
  destruct (DO W0) as [GA XA]. pose proof (gr_len _ _ _ GA) as LA.
  assert (W1 : gwf (fst st1)) by (eapply grows_gwf; eassumption).
  assert (LD1 : loaded (fst st1) (next_pc (fst st))) by (eapply loaded_emit; [exact LD|exact W1|exact LA]).
  destruct args as [|a0 args0]; [discriminate O|]. assert (O0 : f = (64 + N.of_nat (id_len (ls_locals ls)) + ts_next (snd st))%N) by congruence. clear O. rename O0 into O.
  set (args := a0 :: args0) in *.
  assert (BD' : (64 + N.of_nat (id_len (ls_locals ls)) + ts_next (snd st) + N.of_nat (length args) <= 256)%N) by (apply BD; discriminate).
  pose proof (temp_index c _ _ O) as FI.
  assert (AR : arrived (reg_index c f) st [] c m s).
  { split; [exact PC|]. split; [exact HD|]. split; [intros k g E; destruct k; discriminate E|].
    split; [cbn [length]; lia|]. rewrite FI. unfold top_slot. lia. }
  assert (EVC : exists r1 s1, delivers false s (subscripts (arg_exprs args)) r1 s1 /\ s' = s1 /\
     match r1 with
     | Err x => r = Err x
     | Ok gs => exists zs ta dims at_, gs = map (fun z => GValue (CInt z)) zs /\ vals s1 (symkey (vr_name v)) = Some (Elements ta dims at_) /\
         (valid_subs dims zs /\ r = Ok (at_ zs) \/ exists z d, first_bad dims zs z d /\ r = Err (bad_subscript z d))
     end).
  { change symkey with ascii_upper in *.
    inversion EV as [| | | | | | | | | | | |? ? ? ? k md' syn' gs s1 d ? Ek Em Ec Ed Eq|? ? ? ? k md' syn' gs s1 x ? Ek Em Ec Ed Eq
      |? ? ? ? k md' syn' x ? Ek Em Ec Ed|? ? ? ? k zs ? ta dims at_ Ek Em Ed Ev Eb|? ? ? ? k zs ? ta dims at_ z dd Ek Em Ed Ev Eb|? ? ? ? k x ? Ek Em Ed]; subst k;
      try (rewrite GN in Em; discriminate Em); subst.
    - eexists _, s'. split; [exact Ed|]. split; [reflexivity|]. exists zs, ta, dims, at_. split; [reflexivity|]. split; [exact Ev|]. auto.
    - eexists _, s'. split; [exact Ed|]. split; [reflexivity|]. exists zs, ta, dims, at_. split; [reflexivity|]. split; [exact Ev|]. right. eauto.
    - exists (Err x), s'. auto. }
  destruct EVC as (r1 & s1 & DV & -> & RC).
  pose proof (XA false (reg_index c f) reg [] c m s r1 s1 LD1 (fine_subscripts _ _ FA) AR DV) as P. rewrite FI in P. clear XA.
  destruct P as [P|P]; [left; exact P|].
  destruct r1 as [gs|x]; [|subst r; right; exact P].
  destruct P as (c1 & m1 & R1 & PC1 & HD1 & LA1 & TP1 & _). cbn [app] in *.
  eapply gsettles_after; [exact R1|].
  destruct RC as (zs & ta & dims & at_ & -> & EL & RC).
  assert (LK : local_kept s s1) by exact (proj2 (proj2 (proj2 evals_local)) _ _ _ _ _ DV).
  assert (BN : get_local_or_global (by_now L ls) v = Ok (arr, PArray t0 nd)).
  { rewrite (kn_lookup _ K); [exact G|]. rewrite G. intros X. exact X. }
  pose proof (hd_vars _ _ _ _ _ _ _ _ HD1 _ _ _ _ (clear_seen _ _ _ _ _ (clear_later _ _ _ LK CL) EL BN)) as RP.
  cbn [represents] in RP. destruct RP as (<- & ND & i & vs & J1 & J2 & J3 & J4 & J5).
  assert (LZ : length zs = length (arg_exprs args)).
  { clear -DV. remember (arg_exprs args) as es eqn:E. clear E args. revert zs s DV.
    induction es as [|e es IH]; intros zs s DV; cbn [subscripts map] in DV.
    - inversion DV as [? ? X0 X1| | |]. destruct zs; [reflexivity|discriminate].
    - inversion DV as [|? ? ? ? g s2 gs ? GV D X| |]; subst.
      inversion GV as [? ? ? ? d ? EA Y| | | | |]; subst. destruct zs as [|z zs]; [discriminate|]. cbn [app map] in *.
      match goal with Q : GValue d :: gs = GValue (CInt z) :: _ |- _ => injection Q as -> -> end.
      cbn [length]. f_equal. eapply IH. exact D. }
  assert (NA : names_array c1 m1 arr i) by (split; [exact J1|]; split; [exact J2|]; exists dims, vs; auto).
  assert (RK : rank_of m1 i dims) by (exists vs; exact J3).
  assert (HS : holds_subs c1 f zs).
  { split; [lia|]. split; [lia|]. intros k z E.
    assert (E' : nth_error (map (fun z => GValue (CInt z)) zs) k = Some (GValue (CInt z))) by (rewrite nth_error_map, E; reflexivity).
    specialize (LA1 _ _ E'). cbn [slot_holds stands_for] in LA1. destruct LA1 as (_ & _ & LA1).
    rewrite <- LA1. f_equal. f_equal. rewrite (greach_fp _ _ _ _ _ _ _ _ R1). unfold top_slot. subst f. lia. }
  assert (F : fetched img (c_pc c1) (I3 LoadArray reg arr f)).
  { rewrite PC1. eapply loaded_at; [exact LD|exact LA|discriminate]. }
  destruct RC as [[V ->]|(z & d & FB & ->)].
  - destruct (load_array powf img c1 m1 reg arr f i dims zs NA RK HS V) as (raw & (dims' & vs' & E1 & _ & E2) & D).
    assert (vs' = vs) as -> by congruence. assert (dims' = dims) as -> by congruence.
    destruct (J5 _ V) as (raw' & E3 & ST). assert (raw' = raw) as -> by congruence.
    destruct (gwrite (top_slot ls c (snd st)) reg reg c1 m1 s1 _ raw HD1 F D DS (or_introl eq_refl)) as [R2 H2].
    right. eexists _, m1. split; [exact R2|]. split; [rewrite emit_pc, <- PC1; reflexivity|]. split; [|exact H2].
    rewrite get_written. exact ST.
  - destruct (array_bad_subscript powf img c1 m1 arr f i dims zs NA RK HS ltac:(lia) (first_bad_invalid _ _ _ _ FB)) as (z' & d' & FB' & _ & D).
    destruct (first_bad_unique _ _ _ _ _ _ FB FB') as [<- <-].
    right. exists c1, m1. split; [constructor|]. rewrite <- (hd_world _ _ _ _ _ _ _ _ HD1). eapply F_machine.
    rewrite (step_at powf img _ _ _ (hd_yield _ _ _ _ _ _ _ _ HD1) F). apply D.
Qed.

Lemma call_works v p args : Forall (arg_all works) args -> works (ECall v p args).
Proof.
  intros FW reg st st' t lim c m s r s' H W0 LD FI HD PC SP RB DS TM EV. apply fine_call in FI as (CL & OF & FA).
  destruct SP as (RL & LL1 & LL2). eapply gsettles_less; [exact LL2|]. assert (RL' := Nat.lt_le_trans _ _ _ RL LL2). clear RL. rename RL' into RL.
  change (compile_call ls v p (map (with_closure ls) args) reg st = COk (st', t)) in H. unfold compile_call in H.
  destruct (get_callable (ls_global ls) (symkey (vr_name v))) as [md|] eqn:GC.
  - pose proof (kn_fun _ K _ _ GC) as GL.
    destruct (md_return md) as [rt|] eqn:RT; [|discriminate H]. destruct (negb _); [discriminate H|].
    destruct (is_argless md); [discriminate H|].
    apply bind_ok in H as (sc & OS & H). apply bind_ok in H as ([[ret sc1] st1] & AL & H).
    apply bind_ok in H as ([[st2 first] lcs] & CA & H). apply bind_ok in H as (g2 & CG & H).
    apply COk_inj, pair_inj in H as [<- <-]. cbn [close fst] in *.
    apply open_ok in OS as (_ & _ & NL). apply alloc_ok in AL as (A1 & _ & _ & _ & A5 & A6 & A7). rewrite NL in A6.
    assert (RM : room st st1 ret) by (unfold room; auto).
    assert (NE : negb (reg =? ret)%N = true).
    { apply Bool.negb_true_iff, N.eqb_neq. intros ->. rewrite (temp_index c _ _ A6) in RL. lia. }
    rewrite NE in *. clear NE.
    destruct (args_sim _ _ _ _ _ _ _ CA FW) as (syn & st1' & CH & DO & E2 & _ & _ & WL).
    assert (W1 : gwf (fst st1)) by (rewrite A1; exact W0). destruct (DO W1) as [GA XA]. rewrite <- E2 in GA, XA.
    assert (W2 : gwf (fst st2)) by (eapply grows_gwf; eassumption).
    pose proof (gr_len _ _ _ GA) as LA. rewrite A1 in LA.
    (* The call and what follows *)
    assert (SITE : forall c, c_pc c = next_pc (fst st2) -> call_site c (symkey (vr_name v)) md ret (length lcs) /\
              next_pc g2 = S (next_pc (fst st2)) /\ loaded (fst st2) (next_pc (fst st))).
    { intros c0 PC0. destruct (md_user md) eqn:U.
      - apply COk_inj in CG. pose proof CG as CG'. subst g2. apply loaded_emit in LD; [| |change (next_pc (fst st) <= next_pc (emit INop p (fst st2))); rewrite emit_pc; lia].
        + eapply user_site; [exact U|exact GC|exact LD|exact LA|exact PC0|left; reflexivity|right; eexists; reflexivity|exact W2].
        + eapply grows_gwf; [|exact W2]. eapply (grows_trans 0); [apply (grows_emit 0 INop p); [exact W2|lia]|].
          eapply grows_trans; [apply grows_set_args; lia|]. apply grows_fixup.
          change (0 <= next_pc (fst st2) < next_pc (emit INop p (fst st2))). rewrite emit_pc. lia.
      - apply bind_ok in CG as ([g1 idx] & GU & CG). apply COk_inj in CG. subst g2.
        assert (W3 : gwf g1) by (eapply grows_gwf; [eapply (grows_upcall 0); eassumption|exact W2]).
        assert (P1 : next_pc g1 = next_pc (fst st2)) by (apply next_pc_eq; eapply (grows_upcall 0); eassumption).
        apply loaded_emit in LD.
        + eapply host_site; [exact U|exact GC|exact GU|exact W2|exact LD|left; reflexivity|exact LA|exact PC0].
        + eapply grows_gwf; [|exact W3]. eapply (grows_trans 0); [apply (grows_emit 0 (upcall_instr md idx ret) p); [exact W3|lia]|].
          apply grows_set_args. lia.
        + match goal with |- _ <= next_pc (set_arg_linecols _ _ ?g) => change (next_pc (fst st) <= next_pc g) end.
          rewrite emit_pc. lia. }
    assert (EVC : exists r1 s1, delivers false s (wants syn args) r1 s1 /\
       match r1 with
       | Err x => r = Err x /\ s' = s1
       | Ok gs => exists rc, calls (symkey (vr_name v)) gs s1 rc s' /\
           match rc with Ok (Some d) => r = Ok d | Err x => r = Err x | Ok None => False end
       end).
    { change symkey with ascii_upper in *. clear SITE.
      inversion EV as [| | | | | | | | | | | |? ? ? ? k md' syn' gs s1 d ? Ek Em Ec Ed Eq|? ? ? ? k md' syn' gs s1 x ? Ek Em Ec Ed Eq
        |? ? ? ? k md' syn' x ? Ek Em Ec Ed|? ? ? ? k zs ? ta dims at_ Ek Em|? ? ? ? k zs ? ta dims at_ z dd Ek Em|? ? ? ? k x ? Ek Em]; subst;
        try (rewrite GL in Em; discriminate Em); rewrite GL in Em; injection Em as <-;
        rewrite <- (chosen_same _ _ _ _ CH Ec) in Ed.
      - exists (Ok gs), s1. split; [exact Ed|]. exists (Ok (Some d)). auto.
      - exists (Ok gs), s1. split; [exact Ed|]. exists (Err x). auto.
      - exists (Err x), s'. split; [exact Ed|]. auto. }
    destruct EVC as (r1 & s1 & DV & RC).
    pose proof (temp_index c _ _ A6) as RI. pose proof (room_top c _ _ _ RM) as RT1.
    assert (PC2 : exists c0, c_pc c0 = next_pc (fst st2)) by (exists (set_pc c (next_pc (fst st2))); reflexivity).
    destruct PC2 as [c0 PC0]. destruct (SITE c0 PC0) as (_ & P2 & LD2). clear c0 PC0.
    assert (LDA : loaded (fst st2) (next_pc (fst st1))) by (rewrite A1; exact LD2).
    assert (AR : arrived (S (reg_index c ret)) st1 [] c m s).
    { split; [rewrite A1; exact PC|]. split; [exact HD|]. split; [intros k g E; destruct k; discriminate E|].
      split; [cbn [length]; lia|]. rewrite RI. unfold top_slot. lia. }
    assert (XA' : passes (S (reg_index c ret)) reg st1' [] c m r1 s1).
    { eapply XA; [exact LDA|apply fine_wants; exact FA|exact AR|exact DV]. }
    clear XA. destruct XA' as [P|P].
    { left. exact P. }
    assert (WEAK : forall c1 m1, greach (S (reg_index c ret)) reg c m c1 m1 -> greach (top_slot ls c (snd st)) reg c m c1 m1).
    { intros c1 m1 (Q1 & Q2 & Q3 & Q4). split; [exact Q1|]. split; [exact Q2|]. split; [exact Q3|]. intros j J. apply Q4. lia. }
    destruct r1 as [gs|x].
    2: { destruct RC as [-> ->]. right. exact P. }
    destruct P as (c1 & m1 & R1 & PC1 & HD1 & LA1 & _ & _). cbn [app] in LA1.
    apply WEAK in R1. eapply gsettles_after; [exact R1|].
    destruct RC as (rc & CC & RR). rewrite <- E2 in PC1. destruct (SITE c1 PC1) as (CS & _ & _). rewrite WL, <- (delivers_width _ _ _ _ _ DV) in CS.
    pose proof (greach_index _ _ _ _ _ _ _ _ ret R1) as RI1.
    pose proof (functions_ok ls skip c1 m1 s1 (symkey (vr_name v)) md rt ret (S (reg_index c1 ret)) gs rc s' GL RT CS K HD1) as FO.
    assert (FO' := FO ltac:(lia) (temp_dest _ _ A6) ltac:(rewrite RI1; exact LA1) (delivers_refs _ _ _ _ DV (fine_wants _ _ _ FA))
       ltac:(lia) ltac:(intros U; split; [intros q; apply (OF md q GL U)|pose proof (greach_fp _ _ _ _ _ _ _ _ R1); unfold top_slot in *; lia]) CC). clear FO.
    destruct rc as [[d|]|]; [subst r|contradiction|subst r].
    + destruct FO' as [FO'|(c2 & m2 & R2 & P3 & ST & H2)].
      * left. exact FO'.
      * assert (R2' : greach (top_slot ls c (snd st)) reg c1 m1 c2 m2) by (eapply greach_temp; [exact R2|lia|lia]).
        eapply gsettles_after; [exact R2'|].
        pose proof (greach_index _ _ _ _ _ _ _ _ ret R2) as RI2. pose proof (greach_index _ _ _ _ _ _ _ _ reg R2) as RI3.
        pose proof (greach_index _ _ _ _ _ _ _ _ reg R1) as RI4.
        eapply move_result with (ret := ret) (g2 := g2) (from := next_pc (fst st)); try eassumption; try lia.
        rewrite emit_pc. reflexivity.
    + exact FO'.
  - destruct (get_local_or_global ls v) as [[arr [t0 nd|t0]]|[x|x|x|x w]] eqn:G; try discriminate H.
    eapply element_works; try eassumption; [eapply kn_array; eassumption|exact (CL _ _ _ G)].
Qed.

(** Names without arguments. *)
Lemma symbol_works v p : works (ESymbol v p).
Proof.
  intros reg st st' t lim c m s r s' H W0 LD FI HD PC SP RB DS TM EV. apply fine_symbol in FI as [CL OF].
  destruct SP as (RL0 & LL1 & LL2). assert (RL := Nat.lt_le_trans _ _ _ RL0 LL2).
  cbn [compile_expr] in H. unfold compile_symbol in H.
  pose proof (hd_fp _ _ _ _ _ _ _ _ HD) as FP.
  destruct (get_local_or_global ls v) as [[q [t0 n0|t0]]|[x|x|x|x w]] eqn:G; try discriminate H.
  - apply COk_inj, pair_inj in H as [<- <-]. cbn [fst e_emit] in *.
    assert (IV : is_variable L (symkey (vr_name v)) = true) by (eapply kn_var; eassumption).
    change symkey with ascii_upper in *.
    inversion EV as [| | | |? ? ? d Ev|? ? ? k d ? Ek Ei|? ? ? k d ? Ek Ei| | | | | | | | | | |]; subst;
      try (rewrite IV in Ei; discriminate Ei).
    assert (BN : get_local_or_global (by_now L ls) v = Ok (q, PScalar t0)).
    { rewrite (kn_lookup _ K); [exact G|]. rewrite G. intros X. exact X. }
    pose proof (hd_vars _ _ _ _ _ _ _ _ HD _ _ _ _ (clear_seen _ _ _ _ _ CL Ev BN)) as RP. cbn [represents] in RP.
    assert (F : fetched img (c_pc c) (IMove reg q)) by (rewrite PC; eapply loaded_at; [exact LD|apply le_n|discriminate]).
    destruct (gwrite lim reg reg c m s' _ _ HD F eq_refl DS (or_introl eq_refl)) as [R2 H2].
    right. eexists _, m. split; [exact R2|]. split; [rewrite emit_pc, <- PC; reflexivity|]. split; [|exact H2].
    rewrite get_written. exact RP.
  - assert (UD : undefined (get_local_or_global ls v)) by (rewrite G; exact Logic.I).
    destruct (get_callable (ls_global ls) (symkey (vr_name v))) as [md|] eqn:GC; [|discriminate H].
    pose proof (kn_fun _ K _ _ GC) as GL. pose proof (kn_none _ K _ _ GL UD) as UN.
    assert (EVC : exists rc, calls (symkey (vr_name v)) [] s rc s' /\
       match rc with Ok (Some d) => r = Ok d | Err x => r = Err x | Ok None => False end).
    { change symkey with ascii_upper in *.
      inversion EV as [| | | |? ? ? d Ev|? ? ? k d ? Ek Ei Ec|? ? ? k d ? Ek Ei Ec| | | | | | | | | | |]; subst.
      - exfalso. pose proof (hd_known _ _ _ _ _ _ _ _ HD _ _ Ev) as X.
        destruct (get_local_or_global (by_now L ls) v) as [?|[?|?|?|? ?]]; contradiction.
      - exists (Ok (Some d)). auto.
      - exists (Err d). auto. }
    destruct EVC as (rc & CC & RR).
    assert (NL0 : forall c1 m1 b, laid ls cs c1 m1 b []) by (intros c1 m1 b k g E; destruct k; discriminate E).
    assert (SW : shares_well ls skip []) by (intros v0 r0 p0 t0 []).
    destruct (md_return md) as [rt|] eqn:RT; [|discriminate H]. destruct (negb (accepts_callable v (Some rt))); [discriminate H|].
    destruct (negb (is_argless md)); [discriminate H|]. destruct (md_user md) eqn:U.
    + apply COk_inj, pair_inj in H as [<- <-]. cbn [fst] in *.
      destruct (user_site c (symkey (vr_name v)) md reg 0 (fst st) (next_pc (fst st)) p _ U GC LD (le_n _) PC (or_introl eq_refl) (or_introl eq_refl) W0)
        as (CS & P2 & _).
      assert (R64 : (64 <= reg)%N).
      { destruct DS as [DS|DS]; [apply (OF md reg GL U DS)|lia]. }
      pose proof (functions_ok ls skip c m s _ md rt reg lim [] rc s' GL RT CS K HD (conj R64 RB) DS (NL0 _ _ _) SW RL0) as FO.
      assert (FO' := FO ltac:(intros _; split; [intros q; apply (OF md q GL U)|exact (conj LL1 (TM v p md eq_refl GL U))]) CC). clear FO.
      rewrite P2. rewrite PC in FO'. destruct rc as [[d|]|]; [subst r|contradiction|subst r]; exact FO'.
    + eapply gsettles_less; [exact LL2|]. apply bind_ok in H as ([g1 idx] & GU & H).
      assert (W1 : gwf g1) by (eapply grows_gwf; [eapply (grows_upcall 0); eassumption|exact W0]).
      assert (P1 : next_pc g1 = next_pc (fst st)) by (apply next_pc_eq; eapply (grows_upcall 0); eassumption).
      destruct (fst (register_to_parts reg)) eqn:GR.
      * apply bind_ok in H as (sc & OS & H). apply bind_ok in H as ([[temp sc1] st1] & AL & H).
        apply COk_inj, pair_inj in H as [<- <-]. cbn [close fst e_emit] in *.
        apply open_ok in OS as (_ & _ & NL). apply alloc_ok in AL as (A1 & _ & _ & _ & A5 & A6 & A7). rewrite NL in A6. cbn [fst snd] in *.
        rewrite A1 in *. pose proof (temp_index c _ _ A6) as RI.
        assert (LD' : loaded (emit (upcall_instr md idx temp) p g1) (next_pc (fst st))).
        { eapply loaded_emit; [exact LD| |rewrite emit_pc; lia]. eapply grows_gwf; [|exact W1]. apply (grows_emit 0); [exact W1|lia]. }
        destruct (host_site c _ md _ temp (fst st) g1 idx (next_pc (fst st)) p [] _ U GC GU W0 LD' (or_intror (conj eq_refl eq_refl)) (le_n _) PC) as (CS & P2 & _).
        pose proof (functions_ok ls skip c m s _ md rt temp (S (top_slot ls c (snd st))) [] rc s' GL RT CS K HD ltac:(lia)
          (temp_dest _ _ A6) (NL0 _ _ _) SW ltac:(lia) ltac:(congruence) CC) as FO.
        destruct rc as [[d|]|]; [subst r|contradiction|subst r].
        -- destruct FO as [FO|(c2 & m2 & R2 & P3 & ST & H2)].
           ++ left. exact FO.
           ++ assert (R2' : greach (top_slot ls c (snd st)) reg c m c2 m2) by (eapply greach_temp; [exact R2|lia|lia]).
              eapply gsettles_after; [exact R2'|].
              pose proof (greach_index _ _ _ _ _ _ _ _ temp R2) as RI2. pose proof (greach_index _ _ _ _ _ _ _ _ reg R2) as RI3.
              eapply move_result with (ret := temp) (g2 := emit (upcall_instr md idx temp) p g1) (from := next_pc (fst st)); try eassumption; try lia.
              rewrite emit_pc. reflexivity.
        -- exact FO.
      * apply COk_inj, pair_inj in H as [<- <-]. cbn [fst] in *.
        destruct (host_site c _ md _ reg (fst st) g1 idx (next_pc (fst st)) p [] _ U GC GU W0 LD (or_intror (conj eq_refl eq_refl)) (le_n _) PC) as (CS & P2 & _).
        assert (R64 : (64 <= reg)%N).
        { unfold register_to_parts, max_global in GR. destruct (N.ltb_spec reg 64); [discriminate GR|lia]. }
        pose proof (functions_ok ls skip c m s _ md rt reg (top_slot ls c (snd st)) [] rc s' GL RT CS K HD (conj R64 RB) DS (NL0 _ _ _) SW RL
          ltac:(congruence) CC) as FO.
        rewrite P2. rewrite PC in FO. destruct rc as [[d|]|]; [subst r|contradiction|subst r]; exact FO.
Qed.

Theorem expr_works e : works e.
Proof.
  induction e as [b p|b p|z p|x p|v p|o l rr p IHl IHr|o e p IHe|v p args IH] using expr_rect'.
  - intros reg st st' t lim c m s r s' H W0 LD FI HD PC RL RB DS TM EV. inversion EV; subst.
    eapply lift_settles; [exact K|exact HD| |exact DS|apply RL].
    eapply (literal_runs powf img (CBool b)); try eassumption; try apply LD; try apply HD. discriminate.
  - intros reg st st' t lim c m s r s' H W0 LD FI HD PC RL RB DS TM EV. inversion EV; subst.
    eapply lift_settles; [exact K|exact HD| |exact DS|apply RL].
    eapply (literal_runs powf img (CDouble b)); try eassumption; try apply LD; try apply HD. discriminate.
  - intros reg st st' t lim c m s r s' H W0 LD FI HD PC RL RB DS TM EV. inversion EV; subst.
    eapply lift_settles; [exact K|exact HD| |exact DS|apply RL].
    eapply (literal_runs powf img (CInt z)); try eassumption; try apply LD; try apply HD. intros q Q. injection Q as <-. exact FI.
  - intros reg st st' t lim c m s r s' H W0 LD FI HD PC RL RB DS TM EV. inversion EV; subst.
    eapply lift_settles; [exact K|exact HD| |exact DS|apply RL].
    eapply (literal_runs powf img (CText x)); try eassumption; try apply LD; try apply HD. discriminate.
  - apply symbol_works.
  - intros reg st st' t lim c m s r s' H W0 LD FI HD PC RL RB DS TM EV. destruct FI as [FI1 FI2].
    change (fine s l) in FI1. change (fine s rr) in FI2.
    cbn [compile_expr] in H. apply bind_ok in H as ([st1 tl] & E1 & H).
    destruct (compile_expr_frame ls l _ _ _ _ E1 W0) as [[G1 N1] L1].
    assert (W1 : gwf (fst st1)) by (eapply grows_gwf; eassumption).
    unfold apply_binary in H.
    apply bind_ok in H as (sc & E2 & H). apply bind_ok in H as ([[rtemp sc2] st2] & E3 & H).
    apply bind_ok in H as ([st3 tr] & E4 & H). apply bind_ok in H as ([g4 t4] & E5 & H).
    apply COk_inj, pair_inj in H as [<- <-]. cbn [close fst] in *.
    apply open_ok in E2 as (_ & _ & NL). apply alloc_ok in E3 as (A1 & _ & _ & _ & A2 & A3 & A4). rewrite NL in A3.
    assert (RM : room st1 st2 rtemp) by (unfold room; auto).
    assert (W2 : gwf (fst st2)) by (rewrite A1; exact W1).
    destruct (compile_expr_frame ls rr _ _ _ _ E4 W2) as [[G2 N2] L2].
    assert (W3 : gwf (fst st3)) by (eapply grows_gwf; eassumption).
    destruct (binary_op_frame (next_pc (fst st3)) _ _ _ _ _ _ _ _ _ _ E5 W3 (le_n _)) as [G3 L3].
    rewrite A1 in G2, L2.
    assert (LD3 : loaded (fst st3) (next_pc (fst st))) by (eapply loaded_before; [exact G3|lia|exact LD]).
    assert (LD1 : loaded (fst st1) (next_pc (fst st))) by (eapply loaded_before; [exact G2|lia|exact LD3]).
    assert (EVC : exists rl s1, evals s l rl s1 /\
       match rl with
       | Err x => r = Err x /\ s' = s1
       | Ok a => exists r2, evals s1 rr r2 s' /\ match r2 with Err x => r = Err x | Ok b => apply2 powf o a b = Some r end
       end).
    { inversion EV as [| | | | | | |? ? ? ? ? a s1 b ? q X1 X2 X3|? ? ? ? ? x s1 X1|? ? ? ? ? a s1 x ? X1 X2| | | | | | | |]; subst.
      - exists (Ok a), s1. split; [exact X1|]. exists (Ok b). auto.
      - exists (Err x), s'. auto.
      - exists (Ok a), s1. split; [exact X1|]. exists (Err x). auto. }
    destruct EVC as (rl & s1 & V1 & RC).
    pose proof (IHl reg st st1 tl lim c m s rl s1 E1 W0 LD1 FI1 HD PC RL RB DS TM V1) as S1.
    destruct S1 as [S1|S1]; [left; exact S1|]. destruct rl as [a|x]; [|destruct RC as [-> ->]; right; exact S1].
    destruct S1 as (c1 & m1 & R1 & P1 & T1 & H1). eapply gsettles_after; [exact R1|].
    destruct RL as (RL & LL1 & LL2). destruct RC as (r2 & V2 & RC). pose proof (hd_fp _ _ _ _ _ _ _ _ H1) as FP1.
    pose proof (greach_index _ _ _ _ _ _ _ _ reg R1) as RX. pose proof (greach_top _ _ _ _ _ _ _ _ ls (snd st) R1) as TX.
    pose proof (temp_index c1 _ _ A3) as RI. pose proof (room_top c1 _ _ _ RM) as RT.
    assert (TX1 : top_slot ls c1 (snd st1) = top_slot ls c (snd st)) by (rewrite <- TX; unfold top_slot; rewrite N1; reflexivity).
    assert (FI2' : fine s1 rr) by (eapply fine_later; [exact (proj1 evals_local _ _ _ _ V1)|exact FI2]).
    assert (S2 : gsettles (next_pc (fst st3)) (top_slot ls c1 (snd st2)) rtemp tr c1 m1 r2 s').
    { apply (IHr rtemp st2 st3 tr (top_slot ls c1 (snd st2)) c1 m1 s1 r2 s' E4 W2); try assumption.
      - rewrite A1. eapply loaded_after; [exact LD3|lia].
      - rewrite A1. exact P1.
      - apply spare_all. lia.
      - eapply temp_dest, A3.
      - intros v0 p0 md0 _ _ _. lia. }
    destruct S2 as [S2|S2]; [left; exact S2|].
    destruct r2 as [b|x]; [|subst r; right; exact S2].
    destruct S2 as (c2 & m2 & R2 & P2 & T2 & H2).
    assert (R2' : greach lim reg c1 m1 c2 m2) by (eapply greach_temp; [exact R2|lia|lia]).
    eapply gsettles_after; [exact R2'|].
    assert (GR : get_reg c2 reg = get_reg c1 reg).
    { unfold get_reg. rewrite (greach_index _ _ _ _ _ _ _ _ reg R2). destruct R2 as (_ & _ & _ & R2). apply R2; [lia|lia|].
      apply local_dest; assumption. }
    assert (NE : reg <> rtemp) by (intros ->; lia).
    destruct (binop_runs powf img lim _ _ _ _ _ _ _ _ _ _ c2 m2 a b E5) as (q & Q & OUT).
    + intros p0 i0 Q. apply LD. lia.
    + exact P2.
    + apply H2.
    + apply H2.
    + apply H2.
    + exact NE.
    + rewrite (greach_index _ _ _ _ _ _ _ _ rtemp R2). lia.
    + rewrite GR. eapply stands_texts; [eapply greach_texts, R2|exact T1].
    + exact T2.
    + rewrite Q in RC. injection RC as <-. eapply lift_settles; [exact K|exact H2|exact OUT|exact DS|].
      rewrite (greach_fp _ _ _ _ _ _ _ _ R2), (greach_fp _ _ _ _ _ _ _ _ R1). exact LL1.
  - intros reg st st' t lim c m s r s' H W0 LD FI HD PC RL RB DS TM EV. change (fine s e) in FI.
    cbn [compile_expr] in H. apply bind_ok in H as ([st1 tl] & E1 & H).
    destruct (compile_expr_frame ls e _ _ _ _ E1 W0) as [[G1 N1] L1].
    assert (W1 : gwf (fst st1)) by (eapply grows_gwf; eassumption).
    destruct (unary_frame _ (next_pc (fst st1)) _ _ _ _ _ _ _ H W1 (le_n _)) as [[G2 N2] L2].
    assert (LD1 : loaded (fst st1) (next_pc (fst st))) by (eapply loaded_before; [exact G2|lia|exact LD]).
    assert (EVC : exists rl, evals s e rl s' /\ match rl with Err x => r = Err x | Ok a => apply1 o a = Some r end).
    { inversion EV as [| | | | | | | | | |? ? ? ? a s1 q X1 X2|? ? ? ? x s1 X1| | | | | |]; subst.
      - exists (Ok a). auto.
      - exists (Err x). auto. }
    destruct EVC as (rl & V1 & RC).
    pose proof (IHe reg st st1 tl lim c m s rl s' E1 W0 LD1 FI HD PC RL RB DS TM V1) as S1.
    destruct S1 as [S1|S1]; [left; exact S1|]. destruct rl as [a|x]; [|subst r; right; exact S1].
    destruct S1 as (c1 & m1 & R1 & P1 & T1 & H1). eapply gsettles_after; [exact R1|].
    destruct RL as (RL & LL1 & LL2). eapply gsettles_less; [exact LL2|]. destruct (unop_runs powf img ls _ _ _ _ _ _ _ c1 m1 (top_slot ls c (snd st)) a H W1) as (q & Q & OUT).
    + intros p0 i0 Q. apply LD. lia.
    + apply LD.
    + exact P1.
    + apply H1.
    + apply H1.
    + apply H1.
    + unfold top_slot. rewrite (greach_fp _ _ _ _ _ _ _ _ R1), N1. reflexivity.
    + rewrite (greach_index _ _ _ _ _ _ _ _ reg R1). eapply Nat.lt_le_trans; eassumption.
    + exact T1.
    + rewrite Q in RC. injection RC as <-. eapply lift_settles; [exact K|exact H1|exact OUT|exact DS|].
      rewrite (greach_fp _ _ _ _ _ _ _ _ R1). apply top_above.
  - apply call_works, IH.
Qed.
End Fixed.
End Calls.
