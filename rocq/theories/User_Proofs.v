(** Functions and subroutines of the program. *)
From Coq Require Import String.
From Verif Require Import Base Bytecode_Model Bytecode_Spec Bytecode_Proofs Mem_Model Mem_Spec Mem_Proofs Num_Model
  Vm_Model Vm_Spec Vm_Proofs Ids_Model Ids_Spec Ids_Proofs Ast_Model Syms_Model Syms_Proofs Codegen_Model
  Codegen_Proofs Exprs_Model Exprs_Proofs Top_Model Top_Proofs Layout_Proofs Incr_Spec Incr_Proofs Eval_Spec Eval_Proofs
  Args_Spec Args_Proofs Call_Spec Run_Proofs Call_Proofs Host_Proofs Exec_Spec Exec_Proofs Flow_Proofs Select_Proofs
  Simple_Proofs Stmt_Proofs Range_Proofs Steady_Proofs Defs_Proofs Program_Proofs User_Spec.
Local Open Scope list_scope.
Local Open Scope nat_scope.

Lemma upper_idem s : ascii_upper (ascii_upper s) = ascii_upper s.
Proof.
  unfold ascii_upper. rewrite map_map. apply map_ext. intros a. unfold upper1.
  destruct ((97 <=? a) && (a <=? 122))%N eqn:E; [|rewrite E; reflexivity].
  apply andb_true_iff in E as [A B]. apply N.leb_le in A, B.
  destruct (N.leb_spec 97 (a - 32)); [exfalso; lia|reflexivity].
Qed.

Lemma in_get {V} (t : @idmap ustr V) ord k e : wf t ord -> In (k, e) t -> id_get ustr_eqb t k = Some e.
Proof.
  intros (<- & _ & ND). induction t as [|[k' e'] t IH]; intros H; [destruct H|].
  cbn [map fst] in ND. inversion ND as [|? ? NI ND']; subst. cbn [id_get]. destruct H as [H|H].
  - injection H as -> ->. rewrite ustr_eqb_refl. reflexivity.
  - destruct (ustr_eqb k' k) eqn:E; [|apply IH; assumption]. exfalso. apply ustr_eqb_eq in E. subst k'.
    apply NI. change k with (fst (k, e)). apply in_map, H.
Qed.

(** * Frames *)

Section Frames.
Context {W : Type}.
Variable L : lsyms.
Variable hidden : N -> option hdatum.
Variable img : image.
Notation cs := (i_constants img).
Implicit Types (m : mem W) (s : env W).

Definition owns (ls : lsyms) (skip : option N) (c : ctx) s (i : N) (e : ustr * (proto * N)) : bool :=
  let '(k, (p, j)) := e in
  match p, vals s k with
  | PArray _ _, Some (Elements _ _ _) =>
      ustr_eqb (ascii_upper k) k && (j + 64 <=? 255)%N && (get_reg c (j + 64) =? ptr_for_heap i)%N &&
      match skip with Some r => negb (r =? j + 64)%N | None => true end
  | _, _ => false
  end.
(** What is out of sight of the callee: what is so already, and the arrays of the caller. *)
Definition hide (ls : lsyms) (skip : option N) (c : ctx) m s (i : N) : option hdatum :=
  match hidden i with
  | Some d => Some d
  | None => if existsb (owns ls skip c s i) (ls_locals ls) then heap_get m i else None
  end.

Variable ls : lsyms.
Variable skip : option N.
Variable c : ctx.
Variable m : mem W.
Variable s : env W.
Hypothesis K : knowing L ls.
Hypothesis HD : holding L hidden cs ls skip c m s.

Lemma own_seen i e : In e (ls_locals ls) -> owns ls skip c s i e = true ->
  exists r p t dims at_, seen L ls skip s (mkVarRef (fst e) None) r p (Elements t dims at_) /\
    ascii_upper (fst e) = fst e /\ get_reg c r = ptr_for_heap i /\
    id_get ustr_eqb (ls_locals ls) (fst e) <> None.
Proof.
  intros IN O. destruct e as [k [p j]]. cbn [owns fst] in *.
  destruct p as [t n|t]; [|discriminate O]. destruct (vals s k) as [[d|t' dims at_]|] eqn:V; try discriminate O.
  apply andb_true_iff in O as [O NS]. apply andb_true_iff in O as [O GR]. apply andb_true_iff in O as [UP LE].
  apply ustr_eqb_eq in UP. apply N.eqb_eq in GR. apply N.leb_le in LE.
  assert (G : id_get ustr_eqb (ls_locals ls) k = Some (PArray t n, j)).
  { destruct (proj1 (kn_ok _ _ K)) as [ord WF]. cbn [by_now ls_locals] in WF. eapply in_get; [exact WF|exact IN]. }
  exists (j + 64)%N, (PArray t n), t', dims, at_. split; [|split; [exact UP|split; [exact GR|rewrite G; discriminate]]].
  split; [cbn [vr_name]; rewrite UP; exact V|]. split.
  - unfold get_local_or_global, get_var. cbn [by_now ls_locals vr_name]. change symkey with ascii_upper. rewrite UP, G.
    cbn [accepts vr_type]. unfold register_local, max_global, max_register. destruct (N.leb_spec (j + 64) 255); [reflexivity|lia].
  - destruct skip as [r|]; [|discriminate]. intros E. injection E as ->. rewrite N.eqb_refl in NS. discriminate NS.
Qed.

Lemma hide_hidden i d : hidden i = Some d -> hide ls skip c m s i = Some d.
Proof. intros H. unfold hide. rewrite H. reflexivity. Qed.

(** The caller's own arrays. *)
Lemma hide_own v r p t dims at_ i : seen L ls skip s v r p (Elements t dims at_) ->
  id_get ustr_eqb (ls_locals ls) (symkey (vr_name v)) <> None ->
  (i < 2 ^ 24)%N -> get_reg c r = ptr_for_heap i -> hide ls skip c m s i = heap_get m i.
Proof.
  intros SE LO LI GR. unfold hide. rewrite (hd_own _ _ _ _ _ _ _ _ HD _ _ _ _ _ _ _ SE LI GR).
  pose proof (hd_vars _ _ _ _ _ _ _ _ HD _ _ _ _ SE) as RP. destruct SE as (V & G & NS).
  destruct (lookup_cases _ _ _ _ G) as [(j & X & ->)|(X & _)]; [|contradiction].
  replace (existsb _ _) with true; [reflexivity|]. symmetry. apply existsb_exists.
  exists (symkey (vr_name v), (p, j)). split; [exact (get_in _ ustr_eqb_eq _ _ _ X)|].
  cbn [owns]. change symkey with ascii_upper in *. rewrite V. destruct p as [t0 n0|t0]; [|destruct RP].
  rewrite upper_idem, ustr_eqb_refl, GR, N.eqb_refl. cbn [andb].
  assert (LE : (j + 64 <= 255)%N).
  { unfold get_local_or_global, get_var in G. change symkey with ascii_upper in G. rewrite X in G.
    destruct (accepts _ _); [|discriminate G]. unfold register_local, max_global, max_register in G.
    destruct (N.leb_spec (j + 64) 255); [assumption|discriminate G]. }
  apply N.leb_le in LE. rewrite LE. cbn [andb]. destruct skip as [q|]; [|reflexivity].
  destruct (N.eqb_spec q (j + 64)); [congruence|reflexivity].
Qed.

(** Shared arrays are not out of sight. *)
Lemma hide_shared v r p t dims at_ i : seen L ls skip s v r p (Elements t dims at_) ->
  id_get ustr_eqb (ls_locals ls) (symkey (vr_name v)) = None ->
  (i < 2 ^ 24)%N -> get_reg c r = ptr_for_heap i -> hide ls skip c m s i = None.
Proof.
  intros SE LO LI GR. unfold hide. rewrite (hd_own _ _ _ _ _ _ _ _ HD _ _ _ _ _ _ _ SE LI GR).
  destruct (existsb _ _) eqn:E; [|reflexivity]. apply existsb_exists in E as (e & IN & O).
  destruct (own_seen _ _ IN O) as (r' & p' & t' & dims' & at_' & SE' & UP & GR' & LO').
  exfalso. apply LO'. rewrite <- UP. change (symkey (vr_name v)) with (ascii_upper (vr_name v)) in LO.
  rewrite <- LO. f_equal. apply (hd_apart _ _ _ _ _ _ _ _ HD _ _ _ _ _ _ _ _ _ _ _ _ SE' SE). congruence.
Qed.

Lemma shared_get k : is_shared L k = true <-> id_get ustr_eqb (gs_vars (ls_global L)) k <> None.
Proof.
  unfold is_shared. pose proof (contains_get (ls_global L) k) as C. destruct (contains_global _ k); split; intros H.
  - intros E. apply C in E. discriminate E.
  - reflexivity.
  - discriminate H.
  - exfalso. apply H, C. reflexivity.
Qed.
Lemma shared_known M v : ls_global M = ls_global L -> is_shared L (symkey (vr_name v)) = true ->
  match get_local_or_global M v with Err (SeUndefined _ _) => False | _ => True end.
Proof.
  intros G H. apply shared_get in H. rewrite <- G in H. unfold get_local_or_global, get_global, get_var.
  destruct (id_get ustr_eqb (ls_locals M) _) as [[p i]|].
  - destruct (accepts _ _); [|exact Logic.I]. destruct (register_local i); exact Logic.I.
  - destruct (id_get ustr_eqb (gs_vars _) _) as [[p i]|]; [|contradiction].
    destruct (accepts _ _); [|exact Logic.I]. destruct (register_global i); exact Logic.I.
Qed.
Lemma local_known M v : id_get ustr_eqb (ls_locals M) (symkey (vr_name v)) <> None ->
  match get_local_or_global M v with Err (SeUndefined _ _) => False | _ => True end.
Proof.
  intros H. unfold get_local_or_global, get_global, get_var.
  destruct (id_get ustr_eqb (ls_locals M) _) as [[p i]|]; [|contradiction].
  destruct (accepts _ _); [|exact Logic.I]. destruct (register_local i); exact Logic.I.
Qed.
Lemma global_lookup M M' v : ls_global M = ls_global M' -> id_get ustr_eqb (ls_locals M) (symkey (vr_name v)) = None ->
  id_get ustr_eqb (ls_locals M') (symkey (vr_name v)) = None -> get_local_or_global M v = get_local_or_global M' v.
Proof. intros G A B. unfold get_local_or_global, get_var. rewrite A, B, G. reflexivity. Qed.

Variable Lk : lsyms.
Hypothesis G : ls_global Lk = ls_global L.
Hypothesis skip_local : forall r, skip = Some r -> (64 <= r)%N.

Lemma enter ls0 c1 s0 : world s0 = world s -> c_yield c1 = false -> 64 <= c_fp c1 ->
  (N.of_nat (c_fp c1) + 192 * N.of_nat (c_max c1 - length (c_stack c1)) + 256 < 2 ^ 32)%N ->
  (forall r, (r < 64)%N -> get_reg c1 r = get_reg c r) ->
  (forall k x, vals s0 k = Some x ->
     match id_get ustr_eqb (ls_locals ls0) k with
     | Some (p, j) => exists d t, x = Scalar d /\ p = PScalar t /\ stands_for cs m t (get_reg c1 (j + 64)) d
     | None => is_shared L k = true /\ vals s k = Some x
     end) ->
  holding Lk (hide ls skip c m s) cs ls0 None c1 m s0.
Proof.
  intros WW Y F SM GL VS.
  assert (SH : forall v r p x, seen Lk ls0 None s0 v r p x ->
    (exists d t, x = Scalar d /\ p = PScalar t /\ stands_for cs m t (get_reg c1 r) d) \/
    (seen L ls skip s v r p x /\ id_get ustr_eqb (ls_locals ls) (symkey (vr_name v)) = None /\ get_reg c1 r = get_reg c r)).
  { intros v r p x (V & LK & _). specialize (VS _ _ V). change ascii_upper with symkey in VS.
    destruct (lookup_cases _ _ _ _ LK) as [(j & X & ->)|(X & j & X2 & -> & LT)]; cbn [by_now ls_locals] in X; rewrite X in VS.
    - left. exact VS.
    - right. destruct VS as [S1 V1].
      assert (NL : id_get ustr_eqb (ls_locals ls) (symkey (vr_name v)) = None).
      { destruct (kn_apart _ _ K (symkey (vr_name v))) as [E|E]; cbn [by_now ls_locals ls_global] in E; [exact E|].
        apply shared_get in S1. contradiction. }
      split; [|split; [exact NL|apply GL, LT]]. split; [exact V1|]. split.
      + rewrite <- LK. apply global_lookup; [symmetry; exact G|exact NL|exact X].
      + intros E. apply skip_local in E. clear -E LT. lia. }
  constructor; try assumption.
  - apply HD.
  - rewrite WW. apply HD.
  - intros v x V. specialize (VS _ _ V). change ascii_upper with symkey in VS.
    destruct (id_get ustr_eqb (ls_locals ls0) (symkey (vr_name v))) as [[p j]|] eqn:X.
    + apply local_known. cbn [by_now ls_locals]. rewrite X. discriminate.
    + apply shared_known; [exact G|apply VS].
  - intros v r p x SE. destruct (SH _ _ _ _ SE) as [(d & t & -> & -> & ST)|(SE' & _ & E)]; [exact ST|].
    rewrite E. eapply hd_vars; eassumption.
  - intros v r p t dims at_ v' r' p' t' dims' at_' SE SE' E.
    destruct (SH _ _ _ _ SE) as [(d & t0 & Q & _)|(A & _ & E1)]; [discriminate Q|].
    destruct (SH _ _ _ _ SE') as [(d & t0 & Q & _)|(A' & _ & E2)]; [discriminate Q|].
    eapply hd_apart; [exact HD|exact A|exact A'|congruence].
  - intros i d. unfold hide. destruct (hidden i) eqn:H; [intros Q; injection Q as ->; eapply hd_hidden; eassumption|].
    destruct (existsb _ _); [tauto|discriminate].
  - intros v r p t dims at_ i SE LI E.
    destruct (SH _ _ _ _ SE) as [(d & t0 & Q & _)|(A & NL & E1)]; [discriminate Q|].
    eapply hide_shared; [exact A|exact NL|exact LI|congruence].
Qed.

Lemma leave lse c2 m2 s1 c3 : holding Lk (hide ls skip c m s) cs lse None c2 m2 s1 -> no_shadowing (by_now Lk lse) ->
  texts_kept m m2 -> same_frame c c3 -> c_yield c3 = false -> (forall r, (r < 64)%N -> get_reg c3 r = get_reg c2 r) ->
  (forall v r p, get_local_or_global (by_now L ls) v = Ok (r, p) -> (64 <= r)%N -> skip <> Some r -> get_reg c3 r = get_reg c r) ->
  holding L hidden cs ls skip c3 m2 (returned (is_shared L) s s1).
Proof.
  intros HE NS TK (F1 & F2 & F3 & F4) Y GL LO.
  assert (SH : forall v r p x, seen L ls skip (returned (is_shared L) s s1) v r p x ->
    (seen L ls skip s v r p x /\ id_get ustr_eqb (ls_locals ls) (symkey (vr_name v)) <> None /\ get_reg c3 r = get_reg c r) \/
    (seen Lk lse None s1 v r p x /\ get_reg c3 r = get_reg c2 r)).
  { intros v r p x (V & LK & NSK). cbn [returned vals] in V. change ascii_upper with symkey in V.
    destruct (lookup_cases _ _ _ _ LK) as [(j & X & ->)|(X & j & X2 & -> & LT)]; cbn [by_now ls_locals ls_global] in *.
    - left. destruct (is_shared L (symkey (vr_name v))) eqn:SHD.
      + exfalso. apply shared_get in SHD. destruct (kn_apart _ _ K (symkey (vr_name v))) as [E|E]; cbn [by_now ls_locals ls_global] in E; congruence.
      + split; [exact (conj V (conj LK NSK))|]. split; [congruence|]. eapply LO; [exact LK|lia|exact NSK].
    - right. assert (SHD : is_shared L (symkey (vr_name v)) = true) by (apply shared_get; congruence). rewrite SHD in V.
      split; [|apply GL, LT]. split; [exact V|]. split; [|discriminate]. rewrite <- LK. apply global_lookup; [exact G| |exact X].
      destruct (NS (symkey (vr_name v))) as [E|E]; [exact E|]. cbn [by_now ls_global] in E. rewrite G in E. congruence. }
  assert (OWN : forall v r p t dims at_, seen L ls skip s v r p (Elements t dims at_) ->
    id_get ustr_eqb (ls_locals ls) (symkey (vr_name v)) <> None ->
    exists i d, (i < 2 ^ 24)%N /\ get_reg c r = ptr_for_heap i /\ heap_get m i = Some d /\ hide ls skip c m s i = Some d).
  { intros v r p t dims at_ SE NL. pose proof (hd_vars _ _ _ _ _ _ _ _ HD _ _ _ _ SE) as R. destruct p as [t0 n|t0]; [|destruct R].
    destruct R as (_ & _ & i & vs & LI & E & HG & _). exists i, (HArray dims vs). repeat (split; [assumption|]).
    rewrite <- HG. eapply hide_own; eassumption. }
  constructor.
  - exact Y.
  - rewrite F1. apply HD.
  - rewrite F1, F3, F4. apply HD.
  - apply HE.
  - apply HE.
  - intros v x V. cbn [returned vals] in V. change ascii_upper with symkey in V.
    destruct (is_shared L (symkey (vr_name v))) eqn:SHD; [apply shared_known; [reflexivity|exact SHD]|]. eapply hd_known; eassumption.
  - intros v r p x SE. destruct (SH _ _ _ _ SE) as [(A & NL & E)|(A & E)]; rewrite E.
    + pose proof (hd_vars _ _ _ _ _ _ _ _ HD _ _ _ _ A) as R. destruct x as [d|t dims at_], p as [t0 n|t0]; try exact R.
      * eapply stands_texts; [exact TK|exact R].
      * destruct (OWN _ _ _ _ _ _ A NL) as (i & d & LI & E1 & HG & HI).
        destruct R as (T & N & i' & vs & LI' & E2 & HG' & LEN & EL).
        assert (i' = i) by (apply ptr_for_heap_inj; [exact LI'|exact LI|congruence]). subst i'.
        split; [exact T|]. split; [exact N|]. exists i, vs. split; [exact LI|]. split; [exact E1|].
        split; [rewrite <- HG', HG; eapply hd_hidden; eassumption|]. split; [exact LEN|].
        intros subs VS. destruct (EL _ VS) as (v0 & N0 & S0). exists v0. split; [exact N0|]. eapply stands_texts; eassumption.
    + eapply hd_vars; eassumption.
  - intros v r p t dims at_ v' r' p' t' dims' at_' SE SE' E.
    destruct (SH _ _ _ _ SE) as [(A & NL & E1)|(A & E1)]; destruct (SH _ _ _ _ SE') as [(B & NL' & E2)|(B & E2)].
    + eapply hd_apart; [exact HD|exact A|exact B|congruence].
    + exfalso. destruct (OWN _ _ _ _ _ _ A NL) as (i & d & LI & E3 & HG & HI).
      rewrite (hd_own _ _ _ _ _ _ _ _ HE _ _ _ _ _ _ i B LI) in HI; [discriminate HI|congruence].
    + exfalso. destruct (OWN _ _ _ _ _ _ B NL') as (i & d & LI & E3 & HG & HI).
      rewrite (hd_own _ _ _ _ _ _ _ _ HE _ _ _ _ _ _ i A LI) in HI; [discriminate HI|congruence].
    + eapply hd_apart; [exact HE|exact A|exact B|congruence].
  - intros i d H. eapply hd_hidden; [exact HE|]. apply hide_hidden, H.
  - intros v r p t dims at_ i SE LI E. destruct (SH _ _ _ _ SE) as [(A & NL & E1)|(A & E1)].
    + eapply hd_own; [exact HD|exact A|exact LI|congruence].
    + assert (H : hide ls skip c m s i = None) by (eapply hd_own; [exact HE|exact A|exact LI|congruence]).
      destruct (hidden i) as [d|] eqn:HI; [|reflexivity]. rewrite (hide_hidden _ _ HI) in H. discriminate H.
Qed.
End Frames.

(** * The code of a definition *)

(** As [later], whatever the names. *)
Record code_later (x y : sst) : Prop := mkCodeLater {
  cl_code : forall p i, code_at x p = Some i -> i <> INop -> code_at y p = Some i;
  cl_const : forall ord, wf (g_constants (s_gen x)) ord -> exists new, wf (g_constants (s_gen y)) (ord ++ new);
  cl_ups : forall ord, wf (g_upcalls (s_gen x)) ord -> exists new, wf (g_upcalls (s_gen y)) (ord ++ new);
  cl_fix : forall f, In f (g_fixups (s_gen x)) -> In f (g_fixups (s_gen y));
  cl_labels : g_labels (s_gen y) = g_labels (s_gen x);
  cl_args : args_kept x y;
  cl_pc : s_pc x <= s_pc y
}.

Record parts (x : sst) (name : varref) (params : list varref) (x0 xe x' : sst) : Prop := mkParts {
  pt_ok0 : ok x0;
  pt_oke : ok xe;
  pt_later : code_later xe x';
  pt_grows : sgrows (s_pc x0) x0 xe;
  pt_return : code_at x' (s_pc xe) = Some IReturn;
  pt_exits : forall a, In a (map fst (t_exits (fst xe))) -> s_pc x <= a /\ exists t, code_at x' a = Some (IJump t) /\ N.to_nat t = s_pc xe;
  pt_start : match vr_type name with
             | None => s_pc x0 = S (s_pc x)
             | Some t => s_pc x0 = S (S (s_pc x)) /\ exists v, code_at x' (S (s_pc x)) = Some (ILoadInteger 64 v) /\
                 (t = TBoolean \/ t = TInteger -> v = 0%N) /\
                 (t = TText -> forall img, consts_in img (s_gen x') ->
                    nth_error (i_constants img) (N.to_nat v) = Some (CText []))
             end;
  pt_locals : exists l1, ls_locals l1 = (match vr_type name with Some t => [(symkey (vr_name name), (PScalar t, 0%N))] | None => [] end) /\
    exists p, define_params params p l1 = COk (snd x0);
  pt_global : gs_vars (ls_global (snd x')) = gs_vars (ls_global (snd xe)) /\ ls_global (snd x') = ls_global (snd xe);
  pt_user : assoc (gs_user (ls_global (snd x'))) (symkey (vr_name name)) = Some (user_md name params)
}.

Lemma definition_parts name pos params body ep x x' x0 xe :
  compile_stmt (StCallable name pos params body ep) x = COk x' -> ok x -> body_start name pos params x = COk x0 ->
  compile_stmts body x0 = COk xe -> parts x name params x0 xe x'.
Proof.
  intros H O BS BODY. rewrite compile_stmt_eq in H. apply bind_ok in H as (q & H & Q). apply COk_inj in Q.
  unfold compile_callable in H. apply bind_ok in H as (l & D & H). unfold body_start in BS. rewrite D in BS. cbn [bind] in BS.
  destruct (existsb _ _); [discriminate H|]. apply bind_ok in H as (y' & H & K). apply COk_inj in K.
  unfold compile_user_callable in H. cbn [fst snd] in H.
  destruct (t_current (fst x)) eqn:CUR; [discriminate H|].
  assert (US : assoc (gs_user (ls_global l)) (symkey (vr_name name)) = Some (user_md name params)).
  { clear -D. unfold declare_callable, declare_user in D. destruct (contains_global _ _); [discriminate|].
    destruct (assoc (gs_user (ls_global (snd x))) (symkey (vr_name name))) as [prev|].
    - destruct (md_dec prev _); [|discriminate]. inv_ok. cbn [ls_global gs_user]. rewrite assoc_insert_get, ustr_eqb_refl. reflexivity.
    - inv_ok. cbn [ls_global gs_user]. rewrite assoc_insert_get, ustr_eqb_refl. reflexivity. }
  apply declare_grows in D as (LG & _).
  assert (OL : ok (fst x, l)).
  { split; [|exact (ok_inv _ O)]. eapply sgrows_swf; [apply (sgrows_syms 0 x l LG)|apply O]. }
  pose proof (proj2 (ok_wf _ OL) CUR) as EX.
  set (xl := (fst x, l)) in *.
  set (x1 := s_emit INop pos xl) in *. cbn zeta in H, BS.
  destruct (ok_emit INop pos xl OL) as [O1 G1]. fold x1 in O1, G1.
  assert (P1 : s_pc x1 = S (s_pc x)) by apply (s_emit_pc _ _ xl).
  set (kind := match vr_type name with Some _ => KFunction | None => KSub end) in *.
  set (x2 := (set_current (Some kind) (fst x1), enter_scope (ls_global l))) in *.
  assert (O2 : ok x2).
  { split; [|exact (ok_inv _ O1)]. split; [exact (proj1 (ok_wf _ O1))|]. cbn. discriminate. }
  apply bind_ok in H as (a & E & H). rewrite E in BS. cbn [bind] in BS.
  apply bind_ok in H as (a0 & E0 & H). rewrite E0 in BS. cbn [bind] in BS. apply COk_inj in BS. subst x0.
  rewrite BODY in H. cbn [bind] in H. apply bind_ok in H as (a2 & E2 & H). apply bind_ok in H as (t & T & H). apply COk_inj in H.
  assert (G3 := define_result_ext _ _ _ _ _ E (ok_wf _ O2)).
  assert (O3 : ok a).
  { split; [eapply sgrows_swf; [exact G3|apply O2]|]. eapply inv_gen; [apply O2|exact G3|].
    eapply steady_gen; [|exact E]. intros P Kx. apply result_st, Kx. }
  pose proof (define_params_grows _ _ _ _ E0) as LP.
  assert (O4 : ok (fst a, a0)).
  { split; [|exact (ok_inv _ O3)]. eapply sgrows_swf; [apply (sgrows_syms 0 a a0 LP)|apply O3]. }
  destruct (ok_body _ _ _ (stmts_bframe body) (block_iframe body) BODY O4) as (O5 & G5 & L5).
  destruct (ok_emit IReturn ep xe O5) as [O6 G6].
  set (y := s_emit IReturn ep xe) in *.
  destruct (jumps_spec _ _ _ _ E2) as (A & J & C & DD & g & FS).
  { intros c I. apply (inv_lt y); [apply O6|]. unfold pend. rewrite !map_app, !in_app_iff. tauto. }
  assert (CA : forall p, code_at x' p = if p =? s_pc x then Some (IJump t) else code_at a2 p).
  { intros p. subst x' q y'. rewrite mark_code. destruct (Nat.eqb_spec p (s_pc x)) as [->|NE].
    - apply (code_patch_at _ _ (set_gen (define_user_callable (symkey (vr_name name)) (s_pc x1) (next_pc (t_gen (fst a2))) (t_gen (fst a2))) (fst a2), snd a2)).
      change (s_pc x < s_pc a2). rewrite C. change (s_pc x < s_pc (s_emit IReturn ep xe)). rewrite s_emit_pc.
      pose proof (sgrows_pc _ _ _ G5). pose proof (sgrows_pc _ _ _ G3). change (s_pc x2) with (s_pc x1) in *. change (s_pc (fst a, a0)) with (s_pc a) in *. lia.
    - exact (code_patch_other _ _ (set_gen (define_user_callable (symkey (vr_name name)) (s_pc x1) (next_pc (t_gen (fst a2))) (t_gen (fst a2))) (fst a2), snd a2) p NE). }
  assert (PC : s_pc x1 <= s_pc a /\ s_pc a <= s_pc xe).
  { pose proof (sgrows_pc _ _ _ G5). pose proof (sgrows_pc _ _ _ G3). change (s_pc x2) with (s_pc x1) in *. change (s_pc (fst a, a0)) with (s_pc a) in *. lia. }
  assert (NS : notin (s_pc x) y).
  { apply notin_emit. eapply notin_step; [exact G5| |].
    - change (s_pc (fst a, a0)) with (s_pc a). lia.
    - change (notin (s_pc x) a). eapply notin_step; [exact G3|change (s_pc x2) with (s_pc x1); lia|].
      apply (notin_now xl). split; apply OL. }
  assert (PE : forall p, In p (map fst (t_exits (fst y))) -> In p (pend y)).
  { intros p I. unfold pend. rewrite !map_app, !in_app_iff. tauto. }
  assert (X0 : code_at xe (s_pc x) = Some INop).
  { rewrite (code_grows _ _ _ _ G5) by (change (s_pc (fst a, a0)) with (s_pc a); lia).
    change (code_at a (s_pc x) = Some INop). rewrite (code_grows _ _ _ _ G3) by (change (s_pc x2) with (s_pc x1); lia).
    apply (code_emit_at INop pos xl). }
  assert (ARGS : args_kept xe x').
  { destruct (jumps_const _ _ _ _ E2) as (_ & _ & _ & _ & C5). subst x' q y'. intros p md LT0 H0.
    destruct (la_args _ _ (later_emit IReturn ep xe) p md LT0 H0) as (md1 & H1 & F1). fold y in H1.
    match goal with |- exists md', nth_error (g_instrs (s_gen (mark_from ?st ?b ?z))) _ = _ /\ _ =>
      destruct (mark_args st b z p md1) as (md2 & H2 & F2) end.
    - match goal with |- p < s_pc ?z => change (p < length (upd (g_code (s_gen a2)) (s_pc x) (IJump t))) end.
      rewrite upd_length. change (p < s_pc a2). rewrite C. change (p < s_pc (s_emit IReturn ep xe)). rewrite s_emit_pc. lia.
    - change (nth_error (g_instrs (s_gen a2)) p = Some md1). rewrite C5. exact H1.
    - exists md2. split; [exact H2|congruence]. }
  assert (SAME : g_constants (s_gen x') = g_constants (s_gen xe) /\ g_upcalls (s_gen x') = g_upcalls (s_gen xe) /\
    g_fixups (s_gen x') = g_fixups (s_gen xe) /\ g_labels (s_gen x') = g_labels (s_gen xe)).
  { destruct (jumps_const _ _ _ _ E2) as (C1 & C2 & C3 & C4 & _). clear ARGS. subst x' q y'. rewrite mark_const, mark_labels.
    rewrite (proj1 (mark_gen _ _ _)), (proj2 (mark_gen _ _ _)).
    change (g_constants (s_gen a2) = g_constants (s_gen xe) /\ g_upcalls (s_gen a2) = g_upcalls (s_gen xe) /\ g_fixups (s_gen a2) = g_fixups (s_gen xe) /\ g_labels (s_gen a2) = g_labels (s_gen xe)).
    rewrite C1, C2, C3, C4. auto. }
  assert (PX : s_pc x' = S (s_pc xe)).
  { subst x' q y'. rewrite mark_pc. etransitivity; [|etransitivity; [exact C|apply s_emit_pc]].
    exact (patch_pc (s_pc x) (IJump t) (define_user_callable (symkey (vr_name name)) (s_pc x1) (next_pc (t_gen (fst a2))) (t_gen (fst a2)))). }
  assert (CODE : forall p i, code_at xe p = Some i -> i <> INop -> code_at x' p = Some i).
  { intros p i CP NI. rewrite CA. destruct (Nat.eqb_spec p (s_pc x)) as [->|NE]; [congruence|].
    rewrite J; [apply (la_code _ _ (later_emit IReturn ep xe)); assumption|].
    intros I. apply PE in I. apply (proj2 (ok_inv _ O6)) in I.
    pose proof (la_code _ _ (later_emit IReturn ep xe) _ _ CP NI) as Z. fold y in Z. congruence. }
  constructor.
  - exact O4.
  - exact O5.
  - destruct SAME as (S1 & S2 & S3 & S4). constructor; [exact CODE| | | | |exact ARGS|lia].
    + intros ord Wf. exists []. rewrite S1, app_nil_r. exact Wf.
    + intros ord Wf. exists []. rewrite S2, app_nil_r. exact Wf.
    + intros f. rewrite S3. auto.
    + exact S4.
  - exact G5.
  - rewrite CA. destruct (Nat.eqb_spec (s_pc xe) (s_pc x)); [lia|]. rewrite J; [apply (code_emit_at IReturn ep xe)|].
    intros I. change (In (s_pc xe) (map fst (t_exits (fst xe)))) in I.
    assert (I' : In (s_pc xe) (pend xe)) by (unfold pend; rewrite !map_app, !in_app_iff; tauto).
    apply (inv_lt xe _ (ok_inv _ O5)) in I'. lia.
  - intros p I. split.
    { change (In p (map fst (t_exits (fst xe)))) in I. destruct (sg_exits _ _ _ G5) as (n5 & E5 & W5 & _). destruct (sg_exits _ _ _ G3) as (n3 & E3 & W3 & _).
      cbn [fst] in E5. rewrite E5, E3 in I. change (t_exits (fst x2)) with (t_exits (fst xl)) in I. rewrite EX in I. cbn [app] in I.
      rewrite map_app in I. apply in_app_iff in I as [I|I]; apply in_map_iff in I as ([b q'] & <- & IB).
      - apply (proj1 (Forall_forall _ _) W3) in IB. cbn [fst] in *. change (s_pc x2) with (s_pc x1) in IB. lia.
      - apply (proj1 (Forall_forall _ _) W5) in IB. cbn [fst] in *. change (s_pc (fst a, a0)) with (s_pc a) in IB. lia. }
    destruct (A p I) as (t' & CT & TT). exists t'. split; [|exact TT]. rewrite CA.
    destruct (Nat.eqb_spec p (s_pc x)) as [->|NE]; [|exact CT]. exfalso. apply NS, PE, I.
  - unfold define_result in E. destruct (vr_type name) as [ty|] eqn:VT.
    + destruct (put_local (snd x2) _ _) as [[l1 [r|er]]|] eqn:PL; try discriminate E.
      apply put_local_grows in PL as (_ & _ & i & RL & _ & _ & IL). change (id_len (ls_locals (snd x2))) with 0 in IL. subst i.
      change (register_local (N.of_nat 0)) with (Some 64%N) in RL. injection RL as <-.
      apply bind_ok in E as ([g1 v] & EC & E). apply COk_inj in E.
      assert (GC : g_code g1 = g_code (s_gen x2)).
      { destruct ty; try (apply COk_inj, pair_inj in EC as [<- _]; reflexivity);
        apply (grows_constant 0) in EC as (_ & GC & _); first [exact GC|apply (ok_wf _ O2)]. }
      assert (NP : next_pc g1 = S (s_pc x)).
      { rewrite <- P1. change (s_pc x1) with (next_pc (s_gen x2)). apply next_pc_eq, GC. }
      assert (PA : s_pc a = S (S (s_pc x))).
      { subst a. rewrite <- NP. apply (s_emit_pc (ILoadInteger 64 v) pos (set_gen g1 (fst x2), l1)). }
      split; [exact PA|]. exists v. split.
      * apply CODE; [|discriminate]. rewrite (code_grows _ _ _ _ G5) by (change (s_pc (fst a, a0)) with (s_pc a); lia).
        change (code_at a (S (s_pc x)) = Some (ILoadInteger 64 v)). rewrite <- NP. subst a.
        apply (code_emit_at (ILoadInteger 64 v) pos (set_gen g1 (fst x2), l1)).
      * split; [intros [->| ->]; apply COk_inj, pair_inj in EC as [_ <-]; reflexivity|].
        intros -> im CI.
        assert (CG : consts_in im g1).
        { intros ord Wf. destruct (gr_const _ _ _ (sg_gen _ _ _ G5) ord) as [n Wf'].
          - change (wf (g_constants (s_gen a)) ord). subst a. exact Wf.
          - rewrite <- (proj1 SAME) in Wf'. destruct (CI _ Wf') as [r R]. exists (n ++ r). rewrite R. apply app_assoc_reverse. }
        exact (constant_there im _ _ _ _ _ EC (proj1 (ok_wf _ O2)) CG).
    + apply COk_inj in E. subst a. exact P1.
  - unfold define_result in E. destruct (vr_type name) as [ty|] eqn:VT.
    + destruct (put_local (snd x2) _ _) as [[l1 [r|er]]|] eqn:PL; try discriminate E.
      apply put_local_grows in PL as (_ & _ & i & RL & LL & _ & IL). change (id_len (ls_locals (snd x2))) with 0 in IL. subst i.
      apply bind_ok in E as ([g1 v] & EC & E). apply COk_inj in E. exists l1. split; [exact LL|]. exists pos. subst a. exact E0.
    + apply COk_inj in E. subst a. exists (snd x2). split; [reflexivity|]. exists pos. exact E0.
  - assert (GG : ls_global (snd x') = ls_global (snd xe)).
    { subst x' q y'. rewrite mark_snd. cbn [snd ls_global]. rewrite DD. reflexivity. }
    rewrite GG. auto.
  - assert (GG : ls_global (snd x') = ls_global (snd xe)).
    { subst x' q y'. rewrite mark_snd. cbn [snd ls_global]. rewrite DD. reflexivity. }
    rewrite GG. apply (lg_user _ _ (sg_syms _ _ _ G5)). cbn [snd]. apply (lg_user _ _ LP). apply (lg_user _ _ (sg_syms _ _ _ G3)). exact US.
Qed.

(** * Definitions in the image *)

Section Image.
Variable up : list (ustr * callable_md).
Variable defs : list global_def.

Lemma definition_entry k img x name pos params body ep x' :
  compiled_in up defs k img x [StCallable name pos params body ep] x' ->
  exists e, assoc (g_callables (t_gen (k_ctx k))) (symkey (vr_name name)) = Some (S (s_pc x), e).
Proof.
  intros CI. remember [StCallable name pos params body ep] as l eqn:EL. revert EL.
  induction CI as [srcs k img before l after x x' k' img' SE H CB CL|k img x l x' src o k' img' CI IH H]; intros EL.
  - subst l. destruct (compile_more_synced _ _ _ _ _ (session_synced _ _ _ _ _ SE) H) as (_ & _ & _ & _ & _ & xe & g' & C & _ & F & EQ & _).
    cbn [fst] in C. fold (start_of k) in *. destruct (stmts_app _ _ _ _ C) as (y & E & C1). rewrite CB in E. apply COk_inj in E. subst y.
    destruct (stmts_app _ _ _ _ C1) as (y & E & C2). rewrite CL in E. apply COk_inj in E. subst y.
    pose proof (block_views _ _ _ CB (session_known _ _ _ _ _ SE)) as V1.
    cbn [compile_stmts] in CL. apply bind_ok in CL as (y & CL & E). apply COk_inj in E. subst y.
    destruct (definition_view _ _ _ _ _ _ _ CL (vle_known _ _ V1)) as [e V2].
    pose proof (stmt_views _ _ _ CL (vle_known _ _ V1)) as V3. pose proof (block_views _ _ _ C2 (vle_known _ _ V3)) as V4.
    exists e. rewrite EQ. unfold apply_fixups in F.
    destruct (apply_fixup_list_grows 0 _ _ _ F) as (_ & _ & _ & _ & _ & _ & _ & _ & GC).
    { apply Forall_forall. intros; lia. }
    rewrite GC. cbn [g_callables emit with_code]. apply (vl_kept _ _ V4). rewrite V2. cbn [fst].
    rewrite assoc_insert_get, ustr_eqb_refl. reflexivity.
  - destruct (IH EL) as [e A]. destruct (compiled_session _ _ _ _ _ _ _ CI) as [srcs SE].
    destruct (entries_kept _ _ _ _ _ _ _ _ _ SE H (AtCallable (symkey (vr_name name))) (N.of_nat (S (s_pc x)))) as [e' B].
    { exists e. rewrite Nat2N.id. exact A. }
    rewrite Nat2N.id in B. eauto.
Qed.

Record callee (k : compiler) (img : cimage) (key : ustr) (d : definition) (start : nat) (x0 xe : sst) : Prop := mkCallee {
  ce_key : key = symkey (vr_name (df_name d));
  ce_entry : forall t, entry_of k (AtCallable key) t -> N.to_nat t = start;
  ce_md : assoc (gs_user (ls_global (k_syms k))) key = Some (user_md (df_name d) (df_params d));
  ce_tables : tables_ok (df_syms d);
  ce_global : ls_global (df_syms d) = ls_global (k_syms k);
  ce_locals : ls_locals (df_syms d) = ls_locals (snd xe);
  ce_ok : ok x0;
  ce_body : compile_stmts (df_body d) x0 = COk xe;
  ce_has : has (runnable img) (df_syms d) (ci_upcalls img) (entry_of k) x0 xe;
  ce_grows : sgrows (s_pc x0) x0 xe;
  ce_return : fetched (runnable img) (s_pc xe) IReturn;
  ce_exits : forall a, In a (map fst (t_exits (fst xe))) -> exists t, fetched (runnable img) a (IJump t) /\ N.to_nat t = s_pc xe;
  ce_start : match vr_type (df_name d) with
             | None => s_pc x0 = start
             | Some t => s_pc x0 = S start /\ exists v, fetched (runnable img) start (ILoadInteger 64 v) /\
                 forall x h, default_result t = Some x -> exists y, x = Scalar y /\ stands_for (ci_constants img) h t v y
             end;
  ce_params : exists l1, ls_locals l1 = (match vr_type (df_name d) with Some t => [(key, (PScalar t, 0%N))] | None => [] end) /\
    exists p, define_params (df_params d) p l1 = COk (snd x0)
}.

Lemma define_params_wf ps p : forall l l', define_params ps p l = COk l' -> twf (ls_locals l) -> twf (ls_locals l').
Proof. intros l l' H. apply (lg_locals _ _ (define_params_grows _ _ _ _ H)). Qed.

Lemma defined_callee k img key d : defined_in up defs k img key d -> exists start x0 xe, callee k img key d start x0 xe.
Proof.
  intros [x x' name pos params body ep x0 xe CI BS BODY]. exists (S (s_pc x)), x0, xe.
  destruct (compiled_has _ _ _ _ _ _ _ CI) as (HS & OX & OX' & C & LT).
  destruct (definition_entry _ _ _ _ _ _ _ _ _ CI) as [e EN]. destruct (compiled_session _ _ _ _ _ _ _ CI) as [srcs SE].
  cbn [compile_stmts] in C. apply bind_ok in C as (y & C & E). apply COk_inj in E. subst y.
  destruct (definition_parts _ _ _ _ _ _ _ _ _ C OX BS BODY) as [P1 P2 P3 P4 P5 P6 P7 P8 [P9 P9'] P10].
  destruct HS as [[H1 H2 H3 H4 H5 H6 H7] HX]. pose proof (cl_pc _ _ P3) as PE.
  assert (AT : forall a i, code_at x' a = Some i -> i <> INop -> s_pc x <= a -> fetched (runnable img) a i).
  { intros a i CA NI LE. apply H1; [|exact CA|exact NI]. split; [exact LE|]. exact (code_lt _ _ _ CA). }
  assert (X0 : S (s_pc x) <= s_pc x0) by (destruct (vr_type name) as [t|]; lia).
  pose proof (sgrows_pc _ _ _ P4) as XE.
  assert (EXT : ext (snd xe) (mkLsyms (ls_global (k_syms k)) (ls_locals (snd xe)) 0 0)).
  { destruct HX as (_ & A & B & CC). rewrite P9' in A, B, CC. split; [exists []; rewrite app_nil_r; reflexivity|]. split; [exact A|].
    split; [exact B|exact CC]. }
  constructor; cbn [df_name df_params df_body df_syms ls_global ls_locals].
  - reflexivity.
  - intros t [e' A]. change ascii_upper with symkey in A. congruence.
  - apply HX, P10.
  - split; [|exact (proj2 (session_tables _ _ _ _ _ SE))]. apply (lg_locals _ _ (sg_syms _ _ _ P4)).
    destruct P8 as (l1 & L1 & p & DP). eapply define_params_wf; [exact DP|]. rewrite L1. destruct (vr_type name).
    + exists [symkey (vr_name name)]. split; [reflexivity|]. split; [reflexivity|]. constructor; [intros []|constructor].
    + exists []. apply wf_empty.
  - reflexivity.
  - reflexivity.
  - exact P1.
  - exact BODY.
  - constructor; [constructor|exact EXT].
    + intros p i R CP NI. apply AT; [apply (cl_code _ _ P3); assumption|exact NI|unfold s_pc in *; lia].
    + intros ord Wf. destruct (cl_const _ _ P3 _ Wf) as [n W1]. destruct (H2 _ W1) as [r E]. exists (n ++ r). rewrite E. apply app_assoc_reverse.
    + intros ord Wf. destruct (cl_ups _ _ P3 _ Wf) as [n W1]. destruct (H3 _ W1) as [r E]. exists (n ++ r). rewrite E. apply app_assoc_reverse.
    + intros p reg key' R IN. apply H4; [lia|apply (cl_fix _ _ P3), IN].
    + intros p key'. destruct (H5 p key') as [G1 G2]. split; intros IN; [apply G1|apply G2]; apply (cl_fix _ _ P3), IN.
    + intros key' p t. rewrite <- (cl_labels _ _ P3). apply H6.
    + intros p md R E. destruct (cl_args _ _ P3 p md (proj2 R) E) as (md' & E1 & E2). rewrite <- E2. apply H7; [|exact E1].
      unfold s_pc in *. clear -R PE X0. lia.
  - exact P4.
  - apply AT; [exact P5|discriminate|lia].
  - intros a IA. destruct (P6 a IA) as (LE & t & CT & TT). exists t. split; [|exact TT]. apply AT; [exact CT|discriminate|exact LE].
  - destruct (vr_type name) as [t|]; [|exact P7]. destruct P7 as [PS (v & CV & V1 & V2)]. split; [exact PS|].
    assert (FE : fetched (runnable img) (S (s_pc x)) (ILoadInteger 64 v)) by (apply AT; [exact CV|discriminate|lia]).
    exists v. split; [exact FE|]. intros y h DE. destruct t; cbn [default_result] in DE; try discriminate DE; injection DE as <-; eexists; (split; [reflexivity|]); cbn [stands_for].
    + rewrite V1 by auto. auto.
    + rewrite V1 by auto. split; [reflexivity|]. split; [split; discriminate|reflexivity].
    + split; [reflexivity|]. destruct FE as (w & _ & D). apply decode_load in D.
      unfold deref_text. rewrite ptr_from_constant; [|change (2^24)%N with 16777216%N; lia].
      cbn [resolve_string]. change (ci_constants img) with (i_constants (runnable img)). rewrite (V2 eq_refl _ H2). reflexivity.
  - exact P8.
Qed.
End Image.

(** * Calls *)

Lemma local_slot c r : (64 <= r)%N -> reg_index c r = c_fp c + N.to_nat (r - 64).
Proof. intros H. unfold reg_index, register_to_parts, max_global. destruct (N.ltb_spec r 64); [lia|apply Nat.add_comm]. Qed.
Lemma global_slot c r : (r < 64)%N -> reg_index c r = N.to_nat r.
Proof. intros H. unfold reg_index, register_to_parts, max_global. destruct (N.ltb_spec r 64); [reflexivity|lia]. Qed.

Lemma params_get ps p : forall l l' ds k v, define_params ps p l = COk l' ->
  Forall2 (fun p x => cdatum_etype x = param_type p) ps ds -> param_value ps ds k = Some v ->
  exists i, nth_error ds i = Some v /\
    id_get ustr_eqb (ls_locals l') k = Some (PScalar (cdatum_etype v), N.of_nat (id_len (ls_locals l) + i)).
Proof.
  induction ps as [|q ps IH]; intros l l' ds k v H F V; [discriminate V|].
  inversion F as [|? d ? ds' T F']; subst. cbn [define_params] in H. cbn [param_value] in V.
  destruct (put_local l _ _) as [[l1 [r|er]]|] eqn:PL; try discriminate H.
  apply put_local_grows in PL as (_ & NONE & i & RL & LL & _ & IL).
  destruct (ustr_eqb (ascii_upper (vr_name q)) k) eqn:E.
  - injection V as <-. apply ustr_eqb_eq in E. subst k. exists 0. split; [reflexivity|].
    destruct (lg_locals _ _ (define_params_grows _ _ _ _ H)) as [[n EN] _]. rewrite EN. apply get_ext. rewrite LL.
    change (symkey (vr_name q)) with (ascii_upper (vr_name q)) in *. rewrite get_app_none by exact NONE. unfold param_type in T. rewrite T, IL, Nat.add_0_r. reflexivity.
  - destruct (IH _ _ _ _ _ H F' V) as (j & NJ & GJ). exists (S j). split; [exact NJ|]. rewrite GJ. do 3 f_equal.
    rewrite LL. unfold id_len. rewrite app_length. cbn [length]. lia.
Qed.
Lemma params_keep ps p l l' k e : define_params ps p l = COk l' -> id_get ustr_eqb (ls_locals l) k = Some e ->
  id_get ustr_eqb (ls_locals l') k = Some e.
Proof.
  intros H G. destruct (lg_locals _ _ (define_params_grows _ _ _ _ H)) as [[n EN] _]. rewrite EN. apply get_ext, G.
Qed.

Section Calling.
Variable up : list (ustr * callable_md).
Variable defs : list global_def.
Variable powf : N -> N -> N.
Context {W : Type}.
Variable upcall : N -> N -> nat -> image -> ctx -> heap -> W -> option (upcall_result W).
Variable k : compiler.
Variable cimg : cimage.
Variable calls : ustr -> list given -> env W -> res vm_error (option cdatum) -> env W -> Prop.
Notation img := (runnable cimg).
Notation cs := (ci_constants cimg).
Notation G := (ls_global (k_syms k)).
Notation shared := (is_shared (k_syms k)).
Notation gsteps := (gsteps powf img upcall).
Notation stuck := (stuck powf img upcall).
Notation gfails := (gfails powf img upcall).
Implicit Types (m : mem W) (s : env W).
Hypothesis functions_ok : forall L hidden, ls_global L = G ->
  functions_obey powf img upcall L hidden calls (ci_upcalls cimg) (entry_of k).
Hypothesis commands_ok : forall L hidden, ls_global L = G ->
  commands_obey powf img upcall L hidden calls (ci_upcalls cimg) (entry_of k).
Hypothesis calls_local : forall key gs s r s' k', calls key gs s r s' -> shared k' = false -> (r = Ok None -> forall t, ~ In (GRef k' t) gs) -> vals s k' = None -> vals s' k' = None.

Variable key : ustr.
Variable d : definition.
Variable start : nat.
Variable x0 xe : sst.
Hypothesis CE : callee k cimg key d start x0 xe.
Hypothesis NS : no_shadowing (df_syms d).
Hypothesis AP : names_apart (df_syms d).
Hypothesis FI : Forall (stmt_fine (df_syms d)) (df_body d).

(** Into the body. *)
Lemma call_enters c m ret target : c_yield c = false -> heap_ok m -> 64 <= c_fp c -> fetched img (c_pc c) (ICall ret target) ->
  entry_of k (AtCallable key) target -> (64 <= ret)%N ->
  stuck c m \/
  (length (c_stack c) < c_max c /\
   exists c1, gsteps c m c1 m /\ c_pc c1 = s_pc x0 /\ c_fp c1 = reg_index c ret /\ c_yield c1 = false /\
     c_stack c1 = mkFrame (c_pc c) (c_fp c) (Some ret) :: c_stack c /\ c_handler c1 = c_handler c /\ c_max c1 = c_max c /\
     (forall i, i <> reg_index c ret -> slot c1 i = slot c i) /\
     match vr_type (df_name d) with
     | None => slot c1 (reg_index c ret) = slot c (reg_index c ret)
     | Some t => forall x, default_result t = Some x -> exists y, x = Scalar y /\ stands_for cs m t (slot c1 (reg_index c ret)) y
     end).
Proof.
  intros Y HO FP F EN LR.
  pose proof (step_at powf _ c m _ Y F) as ST. cbn [dispatch] in ST. unfold push_frame in ST.
  destruct (Nat.leb_spec (c_max c) (length (c_stack c))) as [LE|LT].
  - left. exists c, m. split; [constructor|]. left. exists XCallStack, (m_world m). split; [right; right; reflexivity|].
    eapply F_machine. exact ST.
  - right. split; [exact LT|]. cbn [c_handler c_regs c_stack c_max c_yield] in ST. rewrite Y in ST.
    set (c1 := mkCtx (N.to_nat target) _ _ _ _ _ _) in ST.
    assert (GS : gsteps c m c1 m).
    { pose proof (gsteps_one powf img upcall c m _ _ ST) as R. destruct m; exact R. }
    assert (F1 : c_fp c1 = reg_index c ret).
    { unfold c1. cbn [c_fp]. rewrite local_slot by exact LR. unfold register_to_parts, max_global.
      destruct (N.ltb_spec ret 64); [lia|reflexivity]. }
    pose proof (ce_entry _ _ _ _ _ _ _ CE _ EN) as TG. pose proof (ce_start _ _ _ _ _ _ _ CE) as SS.
    destruct (vr_type (df_name d)) as [t|].
    + destruct SS as (PX & v & FV & DE).
      assert (ST1 : step powf img c1 m = RNext (Vm_Model.next_pc (set_reg c1 64 v)) m).
      { rewrite (step_at powf img c1 m (ILoadInteger 64 v)); [reflexivity|reflexivity|]. unfold c1. cbn [c_pc]. rewrite TG. exact FV. }
      assert (RI : reg_index c1 64 = reg_index c ret) by (rewrite local_slot by lia; rewrite F1; lia).
      exists (Vm_Model.next_pc (set_reg c1 64 v)). split.
      { eapply gsteps_trans; [exact GS|]. pose proof (gsteps_one powf img upcall c1 m _ _ ST1) as R. destruct m; exact R. }
      split; [cbn [Vm_Model.next_pc set_pc c_pc set_reg set_regs c1]; rewrite PX, TG; reflexivity|].
      split; [exact F1|]. split; [reflexivity|]. split; [reflexivity|]. split; [reflexivity|]. split; [reflexivity|].
      assert (SL : forall i, slot (Vm_Model.next_pc (set_reg c1 64 v)) i = if i =? reg_index c ret then v else slot c i).
      { intros i. etransitivity; [apply (slot_set_reg c1 64 v i)|]. rewrite RI. reflexivity. }
      split.
      * intros i NE. rewrite SL. destruct (Nat.eqb_spec i (reg_index c ret)); [contradiction|reflexivity].
      * intros x DX. rewrite SL, Nat.eqb_refl. apply DE, DX.
    + exists c1. split; [exact GS|]. split; [unfold c1; cbn [c_pc]; congruence|]. split; [exact F1|].
      repeat (split; [reflexivity|]). split; reflexivity.
Qed.

(** The whole call. *)
Lemma user_call_runs depth L hidden ls skip c m s ret target base ds s1 g : ls_global L = G ->
  knowing L ls -> holding L hidden cs ls skip c m s -> (forall r, skip = Some r -> (64 <= r)%N) ->
  fetched img (c_pc c) (ICall ret target) -> entry_of k (AtCallable key) target -> (64 <= ret < 256)%N ->
  base = (match vr_type (df_name d) with Some _ => S (reg_index c ret) | None => reg_index c ret end) ->
  laid L ls cs c m base (map GValue ds) ->
  Forall2 (fun p x => cdatum_etype x = param_type p) (df_params d) ds ->
  (forall v r p, get_local_or_global (by_now L ls) v = Ok (r, p) -> (64 <= r)%N -> skip <> Some r -> reg_index c r < reg_index c ret) ->
  body_runs powf shared calls depth d ds s s1 g ->
  stuck c m \/
  match g with
  | SigError e => gfails c m e (world s1)
  | SigNormal | SigLeave | SigReturn => exists c3 m2, gsteps c m c3 m2 /\ same_frame c c3 /\ texts_kept m m2 /\ c_pc c3 = S (c_pc c) /\
      (forall i, 64 <= i < reg_index c ret -> slot c3 i = slot c i) /\ holding L hidden cs ls skip c3 m2 (returned shared s s1) /\
      forall t v, vr_type (df_name d) = Some t -> vals s1 key = Some (Scalar v) -> stands_for cs m2 t (get_reg c3 ret) v
  | _ => True
  end.
Proof.
  intros GL K HD SK F EN [RR RR'] EB LA TY LOW EX.
  pose proof (hd_fp _ _ _ _ _ _ _ _ HD) as FP.
  destruct (call_enters c m ret target (hd_yield _ _ _ _ _ _ _ _ HD) (hd_heap _ _ _ _ _ _ _ _ HD) FP F EN RR) as [X|(LT & c1 & R1 & P1 & F1 & Y1 & S1 & H1 & M1 & SL & DE)]; [left; exact X|].
  assert (SHL : forall q, is_shared L q = shared q) by (intros q; unfold is_shared; rewrite GL; reflexivity).
  assert (GD : ls_global (df_syms d) = ls_global L) by (rewrite GL; apply CE).
  assert (FP1 : reg_index c ret = c_fp c + N.to_nat (ret - 64)) by (apply local_slot, RR).
  assert (EXT0 : ext (snd x0) (df_syms d)).
  { pose proof (sg_syms _ _ _ (ce_grows _ _ _ _ _ _ _ CE)) as LG. pose proof (has_syms _ _ _ _ _ _ (ce_has _ _ _ _ _ _ _ CE)) as X.
    eapply ext_trans; [|exact X]. destruct LG as [[A _] [B _] C D _]. split; [exact A|]. split; [exact B|]. split; [exact C|exact D]. }
  assert (NS0 : forall a, ext a (df_syms d) -> no_shadowing (by_now (df_syms d) a)).
  { intros a (A & _ & _). eapply shadow_prefix; [|exact NS]. split; [exact A|]. split; [exists []; rewrite app_nil_r; reflexivity|].
    split; [reflexivity|auto]. }
  assert (SMALL : (N.of_nat (c_fp c1) + 192 * N.of_nat (c_max c1 - length (c_stack c1)) + 256 < 2 ^ 32)%N).
  { pose proof (hd_small _ _ _ _ _ _ _ _ HD) as SM. rewrite F1, M1, S1, FP1. cbn [length]. clear -SM RR RR' LT. lia. }
  assert (HE : holding (df_syms d) (hide hidden ls skip c m s) cs (snd x0) None c1 m (entered shared d ds s)).
  { apply (enter L hidden img ls skip c m s K HD (df_syms d) GD SK); [reflexivity|exact Y1|rewrite F1, FP1; lia|exact SMALL| |].
    - intros r LR. rewrite !get_reg_slot, !global_slot by exact LR. apply SL. rewrite FP1. lia.
    - intros q x V. cbn [entered vals] in V. destruct (ce_params _ _ _ _ _ _ _ CE) as (l1 & L1 & p & DP).
      destruct (param_value (df_params d) ds q) as [v|] eqn:PV.
      + injection V as <-. destruct (params_get _ _ _ _ _ _ _ DP TY PV) as (i & NI & GI). rewrite GI.
        exists v, (cdatum_etype v). split; [reflexivity|]. split; [reflexivity|].
        pose proof (LA i (GValue v)) as LV. rewrite (map_nth_error GValue _ _ NI) in LV. specialize (LV eq_refl). cbn [slot_holds] in LV.
        rewrite get_reg_slot, local_slot by lia. rewrite F1.
        replace (reg_index c ret + N.to_nat (N.of_nat (id_len (ls_locals l1) + i) + 64 - 64)) with (base + i).
        * destruct (vr_type (df_name d)) as [t|].
          -- rewrite SL; [exact LV|]. subst base. lia.
          -- destruct (Nat.eq_dec (base + i) (reg_index c ret)) as [E|E]; [rewrite E, DE, <- E; exact LV|rewrite SL by exact E; exact LV].
        * rewrite L1. subst base. destruct (vr_type (df_name d)); cbn [id_len length]; unfold id_len; cbn [length]; lia.
      + assert (SHC : (if shared q then vals s q else None) = Some x ->
          match id_get ustr_eqb (ls_locals (snd x0)) q with
          | Some (p, j) => exists d t, x = Scalar d /\ p = PScalar t /\ stands_for cs m t (get_reg c1 (j + 64)) d
          | None => is_shared L q = true /\ vals s q = Some x end).
        { intros V'. destruct (shared q) eqn:SQ; [|discriminate V']. rewrite <- SHL in SQ.
          destruct (NS0 _ EXT0 q) as [E|E]; cbn [by_now ls_locals ls_global] in E.
          - rewrite E. split; [exact SQ|exact V'].
          - rewrite GD in E. apply shared_get in SQ. contradiction. }
        destruct (vr_type (df_name d)) as [t|]; [|exact (SHC V)].
        destruct (ustr_eqb (ascii_upper (vr_name (df_name d))) q) eqn:E; [|exact (SHC V)].
        apply ustr_eqb_eq in E. destruct (DE _ V) as (y & -> & ST).
        rewrite (params_keep _ _ _ _ q (PScalar t, 0%N) DP).
        * exists y, t. split; [reflexivity|]. split; [reflexivity|]. rewrite get_reg_slot, local_slot by lia. rewrite F1.
          replace (reg_index c ret + _) with (reg_index c ret) by lia. exact ST.
        * rewrite L1. cbn [id_get]. rewrite (ce_key _ _ _ _ _ _ _ CE). change symkey with ascii_upper. rewrite E, ustr_eqb_refl. reflexivity. }
  assert (CL : forall key gs s r s' k', calls key gs s r s' -> is_shared (df_syms d) k' = false -> (r = Ok None -> forall t, ~ In (GRef k' t) gs) -> vals s k' = None -> vals s' k' = None).
  { intros key' gs' s' r' s'' k' CC SH. apply (calls_local _ _ _ _ _ _ CC). rewrite <- SHL. unfold is_shared in *. rewrite <- GD. exact SH. }
  pose proof (gosubs_obey powf img upcall (df_syms d) (hide hidden ls skip c m s) calls (ci_upcalls cimg) (entry_of k)
    (ce_tables _ _ _ _ _ _ _ CE) NS AP (functions_ok _ _ (ce_global _ _ _ _ _ _ _ CE)) CL (commands_ok _ _ (ce_global _ _ _ _ _ _ _ CE))
    (df_body d) x0 xe c1 m _ (ce_body _ _ _ _ _ _ _ CE) (ce_ok _ _ _ _ _ _ _ CE) (ce_has _ _ _ _ _ _ _ CE) FI HE depth) as SO.
  pose proof (proj2 (proj2 (proj2 (proj2 (proj2 (proj2 (exec_sim powf img upcall (df_syms d) (hide hidden ls skip c m s) calls _ (ci_upcalls cimg) (entry_of k)
    (ce_tables _ _ _ _ _ _ _ CE) NS AP (functions_ok _ _ (ce_global _ _ _ _ _ _ _ CE)) CL (commands_ok _ _ (ce_global _ _ _ _ _ _ _ CE)) SO))))))
    _ _ _ _ EX FI x0 xe c1 m (ce_body _ _ _ _ _ _ _ CE) (ce_ok _ _ _ _ _ _ _ CE) (ce_has _ _ _ _ _ _ _ CE) HE P1) as SIM.
  destruct SIM as [(c' & m' & R' & X)|SIM]; [left; exists c', m'; split; [eapply gsteps_trans; eassumption|exact X]|right].
  assert (BACK : forall c2 m2, go powf img upcall c1 m c2 m2 -> fetched img (c_pc c2) IReturn ->
    holding (df_syms d) (hide hidden ls skip c m s) cs (snd xe) None c2 m2 s1 ->
    exists c3 m2, gsteps c m c3 m2 /\ same_frame c c3 /\ texts_kept m m2 /\ c_pc c3 = S (c_pc c) /\
      (forall i, 64 <= i < reg_index c ret -> slot c3 i = slot c i) /\ holding L hidden cs ls skip c3 m2 (returned shared s s1) /\
      forall t v, vr_type (df_name d) = Some t -> vals s1 key = Some (Scalar v) -> stands_for cs m2 t (get_reg c3 ret) v).
  { intros c2 m2 (R2 & (E1 & E2 & E3 & E4) & TK & LO) P2 H2.
    set (cr := mkCtx (S (c_pc c)) (c_fp c) (c_handler c2) (c_regs c2) (c_stack c) (c_max c2) (c_yield c2)).
    assert (ST : step powf img c2 m2 = RNext (set_reg cr ret (get_reg c2 64)) m2).
    { rewrite (step_at powf img c2 m2 IReturn); [|exact (hd_yield _ _ _ _ _ _ _ _ H2)|exact P2]. cbn [dispatch]. unfold do_return. rewrite E3, S1. reflexivity. }
    assert (RI : reg_index cr ret = reg_index c2 64).
    { rewrite (local_slot c2) by lia. rewrite E1, F1, FP1, (local_slot cr) by exact RR. cbn [cr c_fp]. lia. }
    set (c3 := set_yield (set_reg cr ret (get_reg c2 64)) false).
    assert (SL3 : forall i, slot c3 i = slot c2 i).
    { intros i. etransitivity; [apply (slot_set_reg cr ret (get_reg c2 64) i)|]. rewrite RI. destruct (Nat.eqb_spec i (reg_index c2 64)) as [->|]; reflexivity. }
    assert (SF : same_frame c c3) by (repeat split; cbn; congruence).
    assert (LO3 : forall i, 64 <= i < reg_index c ret -> slot c3 i = slot c i).
    { intros i LI. rewrite SL3, LO by (rewrite F1; exact LI). apply SL. lia. }
    exists c3, m2. split.
    { eapply gsteps_trans; [exact R1|]. eapply gsteps_trans; [exact R2|]. pose proof (gsteps_one powf img upcall c2 m2 _ _ ST) as R. destruct m2; exact R. }
    split; [exact SF|]. split; [exact TK|]. split; [reflexivity|]. split; [exact LO3|].
    assert (GL3 : forall r, (r < 64)%N -> get_reg c3 r = get_reg c2 r).
    { intros r LR. rewrite !get_reg_slot, !global_slot by exact LR. apply SL3. }
    split.
    - replace (returned shared s s1) with (returned (is_shared L) s s1) by (unfold is_shared; rewrite GL; reflexivity).
      apply (leave L hidden img ls skip c m s K HD (df_syms d) GD SK (snd xe) c2 m2 s1 c3 H2); [apply NS0, (has_syms _ _ _ _ _ _ (ce_has _ _ _ _ _ _ _ CE))|exact TK|exact SF|reflexivity|exact GL3|].
      intros v r p LK LR NSK. rewrite !get_reg_slot, (reg_index_fp c c3) by apply SF. apply LO3. split; [rewrite local_slot by exact LR; lia|].
      eapply LOW; eassumption.
    - intros t v VT VK.
      assert (GT : get_reg c3 ret = get_reg c2 64).
      { rewrite !get_reg_slot, SL3, (reg_index_fp c c3) by apply SF. f_equal. rewrite (local_slot c2) by lia. rewrite E1, F1. lia. }
      rewrite GT. destruct (ce_params _ _ _ _ _ _ _ CE) as (l1 & L1 & p & DP). rewrite VT in L1.
      assert (GK : id_get ustr_eqb (ls_locals (snd xe)) key = Some (PScalar t, 0%N)).
      { destruct (lg_locals _ _ (sg_syms _ _ _ (ce_grows _ _ _ _ _ _ _ CE))) as [[n EN'] _]. rewrite EN'. apply get_ext.
        eapply params_keep; [exact DP|]. rewrite L1. cbn [id_get]. rewrite ustr_eqb_refl. reflexivity. }
      refine (hd_vars _ _ _ _ _ _ _ _ H2 (mkVarRef (vr_name (df_name d)) None) 64%N (PScalar t) (Scalar v) _).
      split; [|split; [|discriminate]].
      + cbn [vr_name]. change ascii_upper with symkey. rewrite <- (ce_key _ _ _ _ _ _ _ CE). exact VK.
      + unfold get_local_or_global, get_var. cbn [by_now ls_locals vr_name]. rewrite <- (ce_key _ _ _ _ _ _ _ CE), GK. reflexivity. }
  destruct g; try exact Logic.I.
  - destruct SIM as (c2 & m2 & GO & PL & ST). cbn [place] in PL. eapply BACK; [exact GO|rewrite PL; exact (ce_return _ _ _ _ _ _ _ CE)|exact ST].
  - destruct SIM as (c2 & m2 & GO & PL & ST). cbn [place] in PL. destruct (ce_exits _ _ _ _ _ _ _ CE _ PL) as (t & FT & TT).
    pose proof (go_jump powf img upcall c2 m2 t (hd_yield _ _ _ _ _ _ _ _ ST) (hd_heap _ _ _ _ _ _ _ _ ST) FT) as GJ.
    eapply BACK; [eapply go_trans; eassumption|cbn [c_pc set_pc]; rewrite TT; exact (ce_return _ _ _ _ _ _ _ CE)|]. apply (state_pc img). exact ST.
  - destruct SIM as (c2 & m2 & GO & PL & ST). eapply BACK; eassumption.
  - destruct SIM as (c' & m' & R' & X). exists c', m'. split; [eapply gsteps_trans; eassumption|exact X].
Qed.
End Calling.

(** * Calls one within another *)

Section Linked.
Variable up : list (ustr * callable_md).
Variable defs : list global_def.
Variable powf : N -> N -> N.
Context {W : Type}.
Variable upcall : N -> N -> nat -> image -> ctx -> heap -> W -> option (upcall_result W).
Variable k : compiler.
Variable cimg : cimage.
Variable defined : ustr -> definition -> Prop.
Variable host : ustr -> list given -> env W -> res vm_error (option cdatum) -> env W -> Prop.
Notation img := (runnable cimg).
Notation cs := (ci_constants cimg).
Notation G := (ls_global (k_syms k)).
Notation shared := (is_shared (k_syms k)).
Notation calls := (program_calls powf shared defined host).
Hypothesis LN : linked up defs upcall k cimg defined host.

Lemma program_local n : forall key gs s r s' k', calls n key gs s r s' -> shared k' = false -> (r = Ok None -> forall t, ~ In (GRef k' t) gs) -> vals s k' = None -> vals s' k' = None.
Proof.
  pose proof (ln_main _ _ _ _ _ _ _ LN) as [_ _ OB _]. destruct n as [|n]; intros key gs s r s' k' CC SH NG V.
  - eapply OB; eassumption.
  - destruct CC as [CC|CC]; [eapply OB; eassumption|]. destruct CC; cbn [returned vals]; rewrite SH; exact V.
Qed.

Lemma callable_user key md : get_callable G key = Some md -> assoc (gs_user G) key = Some md \/ md_user md = false.
Proof.
  intros H. unfold get_callable in H. destruct (assoc (gs_user _) key) as [md'|] eqn:E; [left; congruence|right].
  eapply (ap_host _ (ho_apart _ _ _ _ (ln_main _ _ _ _ _ _ _ LN))), H.
Qed.

(** The site of a call of the program's own. *)
Lemma user_site L c key d md ret n : ls_global L = G -> defined key d -> get_callable (ls_global L) key = Some md ->
  call_site img L (ci_upcalls cimg) (entry_of k) c key md ret n ->
  md = user_md (df_name d) (df_params d) /\ exists target, entry_of k (AtCallable key) target /\ fetched img (c_pc c) (ICall ret target).
Proof.
  pose proof (ln_main _ _ _ _ _ _ _ LN) as [NS AP OB OH]. intros GL DF CA SITE.
  destruct (defined_callee _ _ _ _ _ _ (ln_compiled _ _ _ _ _ _ _ LN _ _ DF)) as (start & x0 & xe & CE). pose proof (ce_md _ _ _ _ _ _ _ CE) as EM.
  assert (EQ : md = user_md (df_name d) (df_params d)).
  { unfold get_callable in CA. rewrite GL, EM in CA. congruence. }
  split; [exact EQ|]. destruct SITE as [idx U A B F GA|target U EN F]; [|exists target; split; assumption].
  exfalso. subst md. discriminate U.
Qed.

Lemma program_obeys n : forall L hidden, ls_global L = G ->
  functions_obey powf img upcall L hidden (calls n) (ci_upcalls cimg) (entry_of k) /\
  commands_obey powf img upcall L hidden (calls n) (ci_upcalls cimg) (entry_of k).
Proof.
  pose proof (ln_main _ _ _ _ _ _ _ LN) as [NS AP OB OH].
  induction n as [|n IH]; intros L hidden GL.
  all: assert (OBL : host_obeys upcall img (ci_upcalls cimg) host (gs_upcalls (ls_global L)) (is_shared L)) by (unfold is_shared; rewrite GL; exact OB).
  all: assert (NH : forall key gs s r s' md target, host key gs s r s' -> get_callable (ls_global L) key = Some md -> md_user md = true -> entry_of k (AtCallable key) target -> False)
    by (intros key gs s r s' md target CC CA U _; apply (OH _ _ _ _ _ CC); rewrite GL in CA;
        destruct (callable_user _ _ CA) as [E|E]; [apply (ap_user _ AP _ _ E)|congruence]).
  all: split.
  - intros ls skip c0 m0 s0 key md t ret lim gs r s1 CA RT SITE K HD RR DS LA SW LL _ CC. destruct SITE as [idx U A B F GA|target U EN F].
    + eapply host_function; eassumption.
    + exfalso. eapply NH; eassumption.
  - intros ls c0 m0 s0 key md first gs r s1 CA RT SITE K HD RR LA CC. destruct SITE as [idx U A B F GA|target U EN F].
    + eapply host_command; eassumption.
    + exfalso. eapply NH; eassumption.
  - intros ls skip c0 m0 s0 key md t ret lim gs r s1 CA RT SITE K HD RR DS LA SW LL UL CC. destruct CC as [CC|CC].
    { destruct SITE as [idx U A B F GA|target U EN F]; [eapply host_function; eassumption|exfalso; eapply NH; eassumption]. }
    assert (RUN : forall depth d ds g s2, defined key d -> gs = map GValue ds ->
        Forall2 (fun p x => cdatum_etype x = param_type p) (df_params d) ds ->
        body_runs powf shared (calls n) depth d ds s0 s2 g ->
        stuck powf img upcall c0 m0 \/
        match g with
        | SigError e => gfails powf img upcall c0 m0 e (world s2)
        | SigNormal | SigLeave | SigReturn => exists c3 m3, greach powf img upcall ls skip lim ret c0 m0 c3 m3 /\ c_pc c3 = S (c_pc c0) /\
            holding L hidden cs ls skip c3 m3 (returned shared s0 s2) /\
            forall t v, vr_type (df_name d) = Some t -> vals s2 key = Some (Scalar v) -> stands_for cs m3 t (get_reg c3 ret) v
        | _ => True
        end).
    { intros depth d ds g s2 DF EG TY EX. destruct (user_site _ _ _ _ _ _ _ GL DF CA SITE) as (EM & target & EN & F).
      destruct (defined_callee _ _ _ _ _ _ (ln_compiled _ _ _ _ _ _ _ LN _ _ DF)) as (start & x0 & xe & CE).
      destruct UL as [SK [UL1 UL2]]; [subst md; reflexivity|].
      pose proof (hd_fp _ _ _ _ _ _ _ _ HD) as FP.
      assert (RT' : vr_type (df_name d) = Some t) by (subst md; exact RT).
      edestruct (user_call_runs powf upcall k cimg (calls n)) with (ls := ls) (skip := skip) as [X|X].
      - intros; apply IH; assumption.
      - intros; apply IH; assumption.
      - apply program_local.
      - exact CE.
      - eapply (ln_shadow _ _ _ _ _ _ _ LN), DF.
      - eapply (ln_apart _ _ _ _ _ _ _ LN), DF.
      - eapply (ln_fine _ _ _ _ _ _ _ LN), DF.
      - exact GL.
      - exact K.
      - exact HD.
      - exact SK.
      - exact F.
      - exact EN.
      - exact RR.
      - reflexivity.
      - rewrite RT', <- EG. exact LA.
      - exact TY.
      - intros v r0 p GV R64 NSK. pose proof (by_now_slot _ _ _ _ _ c0 K GV FP) as BS.
        assert (NE : reg_index c0 r0 <> reg_index c0 ret).
        { intros E. apply (dest_not_var _ _ _ _ _ _ _ K DS GV NSK). apply (reg_index_eq c0); assumption. }
        clear -BS NE UL1 UL2. lia.
      - exact EX.
      - left; exact X.
      - right. destruct g; try exact X.
        + destruct X as (c3 & m3 & A1 & A2 & A3 & A4 & A5 & A6 & A7). exists c3, m3. split; [|auto].
          split; [exact A1|]. split; [exact A2|]. split; [exact A3|]. intros i I1 I2 [I3|[I3|(q & I3 & I4)]]; apply A5.
          * clear -I1 I2 I3 UL2. lia.
          * clear -I1 I2 I3 UL2 FP. lia.
          * pose proof (local_slot c0 q (SK _ I3)) as Z. clear -I1 I2 I4 Z UL2 FP. lia.
        + destruct X as (c3 & m3 & A1 & A2 & A3 & A4 & A5 & A6 & A7). exists c3, m3. split; [|auto].
          split; [exact A1|]. split; [exact A2|]. split; [exact A3|]. intros i I1 I2 [I3|[I3|(q & I3 & I4)]]; apply A5.
          * clear -I1 I2 I3 UL2. lia.
          * clear -I1 I2 I3 UL2 FP. lia.
          * pose proof (local_slot c0 q (SK _ I3)) as Z. clear -I1 I2 I4 Z UL2 FP. lia.
        + destruct X as (c3 & m3 & A1 & A2 & A3 & A4 & A5 & A6 & A7). exists c3, m3. split; [|auto].
          split; [exact A1|]. split; [exact A2|]. split; [exact A3|]. intros i I1 I2 [I3|[I3|(q & I3 & I4)]]; apply A5.
          * clear -I1 I2 I3 UL2. lia.
          * clear -I1 I2 I3 UL2 FP. lia.
          * pose proof (local_slot c0 q (SK _ I3)) as Z. clear -I1 I2 I4 Z UL2 FP. lia. }
    destruct CC as [depth key d ds s0 t' s2 g v DF TY RT' EX OV V|depth key d ds s0 s2 g DF TY RT' EX OV|depth key d ds s0 s2 e DF TY EX]; [|exact Logic.I|].
    + destruct (user_site _ _ _ _ _ _ _ GL DF CA SITE) as (EM & _).
      assert (t' = t) by (subst md; cbn in RT; congruence). subst t'.
      destruct (RUN _ _ _ _ _ DF eq_refl TY EX) as [X|X]; [left; exact X|right].
      destruct OV as [-> |[-> | ->]]; destruct X as (c3 & m3 & A & B & C & D); exists c3, m3; auto.
    + destruct (RUN _ _ _ _ _ DF eq_refl TY EX) as [X|X]; [left; exact X|right; exact X].
  - intros ls c0 m0 s0 key md first gs r s1 CA RT SITE K HD RR LA CC. destruct CC as [CC|CC].
    { destruct SITE as [idx U A B F GA|target U EN F]; [eapply host_command; eassumption|exfalso; eapply NH; eassumption]. }
    assert (RUN : forall depth d ds g s2, defined key d -> gs = map GValue ds ->
        Forall2 (fun p x => cdatum_etype x = param_type p) (df_params d) ds ->
        body_runs powf shared (calls n) depth d ds s0 s2 g ->
        stuck powf img upcall c0 m0 \/
        match g with
        | SigError e => gfails powf img upcall c0 m0 e (world s2)
        | SigNormal | SigLeave | SigReturn => exists c3 m3, go powf img upcall c0 m0 c3 m3 /\ c_pc c3 = S (c_pc c0) /\
            holding L hidden cs ls None c3 m3 (returned shared s0 s2)
        | _ => True
        end).
    { intros depth d ds g s2 DF EG TY EX. destruct (user_site _ _ _ _ _ _ _ GL DF CA SITE) as (EM & target & EN & F).
      destruct (defined_callee _ _ _ _ _ _ (ln_compiled _ _ _ _ _ _ _ LN _ _ DF)) as (start & x0 & xe & CE).
      pose proof (hd_fp _ _ _ _ _ _ _ _ HD) as FP.
      assert (RT' : vr_type (df_name d) = None) by (subst md; exact RT).
      assert (RR1 : (64 <= first)%N) by (clear -RR; lia).
      pose proof (local_slot c0 first RR1) as FS.
      edestruct (user_call_runs powf upcall k cimg (calls n)) with (ls := ls) (skip := @None N) as [X|X].
      - intros; apply IH; assumption.
      - intros; apply IH; assumption.
      - apply program_local.
      - exact CE.
      - eapply (ln_shadow _ _ _ _ _ _ _ LN), DF.
      - eapply (ln_apart _ _ _ _ _ _ _ LN), DF.
      - eapply (ln_fine _ _ _ _ _ _ _ LN), DF.
      - exact GL.
      - exact K.
      - exact HD.
      - discriminate.
      - exact F.
      - exact EN.
      - clear -RR; lia.
      - reflexivity.
      - rewrite RT', <- EG. exact LA.
      - exact TY.
      - intros v r0 p GV R64 NSK. pose proof (by_now_slot _ _ _ _ _ c0 K GV FP) as BS.
        clear -BS FS RR. lia.
      - exact EX.
      - left; exact X.
      - right. destruct g; try exact X.
        + destruct X as (c3 & m3 & A1 & A2 & A3 & A4 & A5 & A6 & A7). exists c3, m3. split; [|auto].
          split; [exact A1|]. split; [exact A2|]. split; [exact A3|]. intros i I1. apply A5. clear -I1 FS. lia.
        + destruct X as (c3 & m3 & A1 & A2 & A3 & A4 & A5 & A6 & A7). exists c3, m3. split; [|auto].
          split; [exact A1|]. split; [exact A2|]. split; [exact A3|]. intros i I1. apply A5. clear -I1 FS. lia.
        + destruct X as (c3 & m3 & A1 & A2 & A3 & A4 & A5 & A6 & A7). exists c3, m3. split; [|auto].
          split; [exact A1|]. split; [exact A2|]. split; [exact A3|]. intros i I1. apply A5. clear -I1 FS. lia. }
    destruct CC as [depth key d ds s0 t' s2 g v DF TY RT' EX OV V|depth key d ds s0 s2 g DF TY RT' EX OV|depth key d ds s0 s2 e DF TY EX]; [right; exact Logic.I| |].
    + destruct (RUN _ _ _ _ _ DF eq_refl TY EX) as [X|X]; [left; exact X|right].
      destruct OV as [-> |[-> | ->]]; exact X.
    + destruct (RUN _ _ _ _ _ DF eq_refl TY EX) as [X|X]; [left; exact X|right; exact X].
Qed.

Lemma linked_block_runs n d l0 s0 hidden l x x' c m s s' g : around up defs k cimg hidden l0 s0 -> compiled_in up defs k cimg x l x' ->
  Forall (stmt_fine (k_syms k)) l -> ready img (k_syms k) hidden x c m s -> execs_in powf (k_syms k) (calls n) (gosubs powf (k_syms k) (calls n) d s0 l0) s l s' g ->
  outcome_of powf upcall img (k_syms k) hidden x' c m s' g.
Proof.
  intros AR CI FI R X. pose proof (ln_main _ _ _ _ _ _ _ LN) as [NS AP OB OH].
  destruct (program_obeys n (k_syms k) hidden eq_refl) as [FO CO].
  eapply block_runs; try eassumption; [apply OB|apply program_local].
Qed.
Lemma linked_stmt_runs n d l0 s0 hidden st x x' c m s s' g : around up defs k cimg hidden l0 s0 -> compiled_in up defs k cimg x [st] x' ->
  stmt_fine (k_syms k) st -> ready img (k_syms k) hidden x c m s -> exec_in powf (k_syms k) (calls n) (gosubs powf (k_syms k) (calls n) d s0 l0) s st s' g ->
  outcome_of powf upcall img (k_syms k) hidden x' c m s' g.
Proof.
  intros AR CI FI R X. eapply linked_block_runs; try eassumption; [constructor; [exact FI|constructor]|].
  eapply E_block; [|apply E_no_jump; intros name p [->|[]]; inversion X; discriminate].
  destruct g; [eapply E_cons; [exact X|constructor]|..]; (apply E_cons_leaves; [exact X|discriminate]).
Qed.
(** A statement on its own. *)
Lemma linked_alone_runs n d hidden st x x' c m s s' g : compiled_in up defs k cimg x [st] x' ->
  stmt_fine (k_syms k) st -> ready img (k_syms k) hidden x c m s ->
  exec_in powf (k_syms k) (calls n) (gosubs powf (k_syms k) (calls n) d s [st]) s st s' g ->
  outcome_of powf upcall img (k_syms k) hidden x' c m s' g.
Proof.
  intros CI FI R X. eapply linked_stmt_runs; try eassumption. exists x, x', c, m. auto.
Qed.
End Linked.

(** A whole input. *)
Lemma linked_input_runs up defs powf {W} (upcall : N -> N -> nat -> image -> ctx -> heap -> W -> option (upcall_result W))
    defined host n d hidden srcs k img k' img' l c m s s' :
  session up defs srcs k img -> compile_more k img (l, None) = (Compiled, k', img') ->
  linked up defs upcall k' img' defined host ->
  Forall (stmt_fine (k_syms k')) l -> ready (runnable img') (k_syms k') hidden (start_of k) c m s ->
  execs_in powf (k_syms k') (program_calls powf (is_shared (k_syms k')) defined host n)
    (gosubs powf (k_syms k') (program_calls powf (is_shared (k_syms k')) defined host n) d s l) s l s' SigNormal ->
  exists c' m', runs powf upcall (runnable img') c m c' m' /\
    (gives_up powf upcall (runnable img') c' m' \/
     (same_frame c c' /\ texts_kept m m' /\ step powf (runnable img') c' m' = RStop SEof c' m' /\
      holding (k_syms k') hidden (ci_constants img') (k_syms k') None (set_yield c' false) m' s')).
Proof.
  intros SE H LN FI R X. eapply input_ends; [exact SE|exact H| |].
  - apply (ob_scope _ _ _ _ _ _ (ho_obeys _ _ _ _ (ln_main _ _ _ _ _ _ _ LN))).
  - intros xe CI. eapply linked_block_runs; try eassumption. exists (start_of k), xe, c, m. auto.
Qed.

(** Without definitions. *)
Lemma linked_nothing up defs {W} (upcall : N -> N -> nat -> image -> ctx -> heap -> W -> option (upcall_result W)) k img host :
  hosted upcall k img host -> linked up defs upcall k img (fun _ _ => False) host.
Proof. intros H. split; [exact H| | | |]; intros key d []. Qed.

(** Arguments of the program's own functions. *)
Lemma told_values ty ds : map (told ty) (map GValue ds) = map GValue ds.
Proof. rewrite map_map. reflexivity. Qed.
Lemma convert_type t a d : convert t a = Some (Ok d) -> cdatum_etype d = t.
Proof.
  assert (INJ : forall (x y : cdatum), Some (Ok (E := vm_error) x) = Some (Ok y) -> x = y) by congruence.
  destruct t, a; cbn [convert]; intros E; try (apply INJ in E; subst d; reflexivity); try (discriminate E; fail).
  match type of E with context [double_to_integer ?x] => destruct (double_to_integer x) as [z|]; [|discriminate E] end.
  apply INJ in E. subst d. reflexivity.
Qed.
Lemma values_delivered new powf {W} callable variable (calls : ustr -> list given -> env W -> res vm_error (option cdatum) -> env W -> Prop) params :
  forall args es s ds s1, map (fun a : argspan => fst (fst a)) args = map Some es ->
  values powf callable variable calls s (map param_type params) es ds s1 ->
  length args = length params /\
  delivers powf callable variable calls new s (fixed_wants (param_syntaxes params) args) (Ok (map GValue ds)) s1 /\
  Forall2 (fun p x => cdatum_etype x = param_type p) params ds.
Proof.
  induction params as [|p params IH]; cbn [map]; intros args es s ds s1 EA V; inversion V; subst.
  - destruct args; [|discriminate EA]. repeat constructor.
  - destruct args as [|[[a sep] q] args]; [discriminate EA|]. cbn [map fst] in EA. injection EA as -> EA.
    edestruct IH as (A & B & C); [exact EA|eassumption|]. split; [cbn [length]; congruence|]. split.
    + cbn [param_syntaxes fixed_wants fixed_want app map]. apply (D_more _ _ _ _ _ _ _ _ [GValue v] s2); [|exact B].
      apply G_plain. assumption.
    + constructor; [|exact C]. match goal with H : evals_as _ _ _ _ _ _ _ _ _ |- _ => inversion H; subst end.
      eapply convert_type; eassumption.
Qed.

Section Own.
Variable up : list (ustr * callable_md).
Variable defs : list global_def.
Variable powf : N -> N -> N.
Context {W : Type}.
Variable upcall : N -> N -> nat -> image -> ctx -> heap -> W -> option (upcall_result W).
Variable k : compiler.
Variable cimg : cimage.
Variable defined : ustr -> definition -> Prop.
Variable host : ustr -> list given -> env W -> res vm_error (option cdatum) -> env W -> Prop.
Hypothesis LN : linked up defs upcall k cimg defined host.
Notation G := (ls_global (k_syms k)).

Lemma own_arguments new v d args es calls (s : env W) ds s1 : defined (ascii_upper (vr_name v)) d ->
  map (fun a : argspan => fst (fst a)) args = map Some es ->
  values powf (get_callable G) (is_variable (k_syms k)) calls s (map param_type (df_params d)) es ds s1 ->
  exists md syn, get_callable G (ascii_upper (vr_name v)) = Some md /\ chosen md (length args) syn /\
    delivers powf (get_callable G) (is_variable (k_syms k)) calls new s (wants syn args) (Ok (map GValue ds)) s1 /\
    Forall2 (fun p x => cdatum_etype (x : cdatum) = param_type p) (df_params d) ds.
Proof.
  intros DF EA V. destruct (defined_callee _ _ _ _ _ _ (ln_compiled _ _ _ _ _ _ _ LN _ _ DF)) as (start & x0 & xe & CE).
  destruct (values_delivered new _ _ _ _ _ _ _ _ _ _ EA V) as (A & B & C).
  exists (user_md (df_name d) (df_params d)), (mkSyntax (param_syntaxes (df_params d)) None).
  split; [unfold get_callable; rewrite (ce_md _ _ _ _ _ _ _ CE); reflexivity|]. split; [|split; [|exact C]].
  - exists [], []. split; [reflexivity|]. split; [|intros ? []]. cbn [takes sy_repeated sy_singular]. rewrite A. clear.
    induction (df_params d); cbn [param_syntaxes length]; congruence.
  - unfold wants. cbn [sy_singular sy_repeated]. rewrite app_nil_r. exact B.
Qed.
End Own.
