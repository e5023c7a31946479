(** Where the code of statements ends up: the placeholders of EXIT statements stay placeholders
    until their loop patches them, and those with fixups until the end. *)
From Verif Require Import Base Bytecode_Model Mem_Model Vm_Model Ids_Model Ids_Spec Ids_Proofs
  Ast_Model Syms_Model Syms_Proofs Codegen_Model Codegen_Proofs Exprs_Model Exprs_Proofs Top_Model Top_Proofs Range_Proofs
  Steady_Proofs.

Definition code_at (x : sst) (p : nat) : option instr := nth_error (g_code (s_gen x)) p.

(** The addresses with fixups, and those that EXIT statements reserved and nobody has patched. *)
Definition pend (x : sst) : list nat :=
  map fst (g_fixups (s_gen x)) ++ map fst (concat (t_do (fst x)) ++ concat (t_for (fst x)) ++ t_exits (fst x)).

Definition inv (x : sst) : Prop := NoDup (pend x) /\ forall a, In a (pend x) -> code_at x a = Some INop.

Lemma code_lt x a i : code_at x a = Some i -> a < s_pc x.
Proof. intros H. unfold s_pc, next_pc. apply nth_error_Some. unfold code_at in H. congruence. Qed.

Lemma inv_lt x a : inv x -> In a (pend x) -> a < s_pc x.
Proof. intros [_ H] I. eapply code_lt, H, I. Qed.

Lemma code_emit_at i pos x : code_at (s_emit i pos x) (s_pc x) = Some i.
Proof. apply emit_at. Qed.
Lemma code_emit_lt i pos x p : p < s_pc x -> code_at (s_emit i pos x) p = code_at x p.
Proof. intros L. unfold code_at, s_emit, s_gen, emit, with_code. cbn. apply nth_error_app1. exact L. Qed.
Lemma code_patch_at a i x : a < s_pc x -> code_at (s_patch a i x) a = Some i.
Proof. intros L. unfold code_at, s_patch, s_gen, patch, with_code. cbn. apply upd_nth_same. exact L. Qed.
Lemma code_patch_other a i x p : p <> a -> code_at (s_patch a i x) p = code_at x p.
Proof. intros N. unfold code_at, s_patch, s_gen, patch, with_code. cbn. apply upd_nth_other. auto. Qed.
Lemma code_grows b x x' p : sgrows b x x' -> p < b -> code_at x' p = code_at x p.
Proof. intros G L. apply (gr_code _ _ _ (sg_gen _ _ _ G)). exact L. Qed.

Lemma pend_grows b x x' a : sgrows b x x' -> In a (pend x') -> In a (pend x) \/ b <= a.
Proof.
  intros [GG _ O F _ (e & E & W & _) _] I. unfold pend in *. rewrite E in I.
  destruct (gr_fix _ _ _ GG) as (fx & FE & FW). rewrite FE in I.
  rewrite !map_app, !in_app_iff in *.
  assert (X : forall s s', stack_grows b (s_pc x') s s' -> In a (map fst (concat s')) -> In a (map fst (concat s)) \/ b <= a).
  { clear. intros [|top rest] s' H I; cbn in H; [subst s'; destruct I|].
    destruct H as (n & -> & W). cbn [concat] in *. rewrite !map_app, !in_app_iff in *. destruct I as [[I|I]|I]; auto.
    apply in_map_iff in I as (q & <- & I). apply (proj1 (Forall_forall _ _) W) in I. right. lia. }
  destruct I as [[I|I]|[I|[I|[I|I]]]].
  - apply in_map_iff in I as (q & <- & I). apply (proj1 (Forall_forall _ _) FW) in I. right. lia.
  - tauto.
  - apply (X _ _ O) in I. tauto.
  - apply (X _ _ F) in I. tauto.
  - tauto.
  - apply in_map_iff in I as (q & <- & I). apply (proj1 (Forall_forall _ _) W) in I. right. lia.
Qed.

Lemma fresh_after b y z : inv y -> sgrows b y z -> s_pc y < b -> ~ In (s_pc y) (pend z).
Proof. intros I G L H. destruct (pend_grows _ _ _ _ G H) as [H1|H1]; [|lia]. pose proof (inv_lt _ _ I H1). lia. Qed.

Lemma inv_same x x' : inv x -> pend x' = pend x -> (forall a, a < s_pc x -> code_at x' a = code_at x a) -> inv x'.
Proof.
  intros [N1 C] P K. split; [rewrite P; exact N1|]. rewrite P. intros a I. rewrite K; [auto|].
  eapply code_lt. apply C. exact I.
Qed.

Lemma inv_emit i pos x : inv x -> inv (s_emit i pos x).
Proof. intros I. eapply inv_same; [exact I|reflexivity|]. intros a L. apply code_emit_lt. exact L. Qed.

Lemma inv_patch a i x : inv x -> ~ In a (pend x) -> inv (s_patch a i x).
Proof.
  intros [N1 C] I. split; [exact N1|]. intros b H. change (In b (pend x)) in H. rewrite code_patch_other; [auto|].
  intros ->. contradiction.
Qed.

Lemma NoDup_join {A} (a b : list A) : NoDup a -> NoDup b -> (forall x, In x a -> ~ In x b) -> NoDup (a ++ b).
Proof.
  induction 1 as [|x a NI ND IH]; intros B D; [exact B|]. cbn [app]. constructor.
  - rewrite in_app_iff. intros [K|K]; [contradiction|]. apply (D x); [left; reflexivity|exact K].
  - apply IH; [exact B|]. intros y K. apply D. right. exact K.
Qed.
Lemma inv_grows x x' : inv x -> sgrows (s_pc x) x x' -> t_do (fst x') = t_do (fst x) -> t_for (fst x') = t_for (fst x) ->
  t_exits (fst x') = t_exits (fst x) -> filled (s_gen x) (s_gen x') -> inv x'.
Proof.
  intros IV G D F E (L & new & FX & ND & FC). pose proof IV as [N1 C].
  assert (P : pend x' = map fst new ++ pend x) by (unfold pend; rewrite D, F, E, FX, map_app, <- app_assoc; reflexivity).
  split; rewrite P.
  - apply NoDup_join; [exact ND|exact N1|]. intros a K1 K2. destruct (FC a K1) as [K3 _]. apply (inv_lt x) in K2; [|exact IV].
    unfold s_pc in K2. lia.
  - intros a K. apply in_app_iff in K as [K|K]; [apply (FC a K)|]. rewrite (code_grows _ _ _ _ G); [auto|].
    apply (inv_lt x); assumption.
Qed.

Lemma target_eq a pos t : target_at a pos = COk t -> N.to_nat t = a.
Proof.
  unfold target_at, make_target. destruct (_ <? _)%N; intros H; [|discriminate H].
  apply COk_inj in H. subst t. apply Nat2N.id.
Qed.

(** Patching several placeholders. *)
Lemma jumps_spec l target : forall x x', patch_jumps l target x = COk x' -> (forall a, In a (map fst l) -> a < s_pc x) ->
  (forall p, In p (map fst l) -> exists t, code_at x' p = Some (IJump t) /\ N.to_nat t = target) /\
  (forall p, ~ In p (map fst l) -> code_at x' p = code_at x p) /\
  s_pc x' = s_pc x /\ snd x' = snd x /\ exists g, fst x' = set_gen g (fst x).
Proof.
  induction l as [|[a pos] l IH]; intros x x' H L; cbn [patch_jumps map] in *.
  - apply COk_inj in H. subst x'. split; [intros p []|]. split; [reflexivity|]. split; [reflexivity|]. split; [reflexivity|].
    exists (s_gen x). destruct x as [[] ?]. reflexivity.
  - inv_ok. assert (T : N.to_nat a0 = target).
    { eapply target_eq, E. }
    destruct (IH _ _ H) as (A & B & C & D & g & F).
    { intros p I. rewrite s_patch_pc. apply L. right. exact I. }
    rewrite s_patch_pc in C. split; [|split; [|split; [exact C|split; [exact D|exists g; rewrite F; destruct x as [[] ?]; reflexivity]]]].
    + intros p [<-|I]; [|auto]. destruct (in_dec Nat.eq_dec a (map fst l)) as [I|I]; [auto|].
      exists a0. split; [|exact T]. rewrite B by exact I. apply code_patch_at. apply L. left. reflexivity.
    + intros p I. rewrite B by (intros J; apply I; right; exact J). apply code_patch_other. intros ->. apply I. left. reflexivity.
Qed.

Lemma jumps_fixups l target : forall x x', patch_jumps l target x = COk x' -> g_fixups (s_gen x') = g_fixups (s_gen x).
Proof.
  induction l as [|[a pos] l IH]; intros x x' H; cbn [patch_jumps] in H.
  - apply COk_inj in H. subst x'. reflexivity.
  - inv_ok. rewrite (IH _ _ H). reflexivity.
Qed.

(** Removing what was pending and patching it. *)
Lemma inv_jumps l target x y x' : inv y -> patch_jumps l target x = COk x' ->
  (forall p, code_at x p = code_at y p) -> s_pc x = s_pc y ->
  (exists l1 l2, pend y = l1 ++ map fst l ++ l2 /\ pend x = l1 ++ l2) -> inv x'.
Proof.
  intros [N1 C] H K P (l1 & l2 & P1 & P2).
  destruct (jumps_spec _ _ _ _ H) as (A & B & _ & _ & g & F).
  { intros a I. rewrite P. eapply code_lt, C. rewrite P1. rewrite !in_app_iff. tauto. }
  assert (PX : pend x' = pend x).
  { unfold pend. rewrite (jumps_fixups _ _ _ _ H). rewrite F. destruct x as [[] ?]. reflexivity. }
  rewrite P1 in N1. split.
  - rewrite PX, P2. clear -N1. revert N1. induction (map fst l) as [|b m IH]; [auto|]. cbn [app]. intros H.
    apply IH. eapply NoDup_remove_1. exact H.
  - rewrite PX, P2. intros a I. rewrite B.
    + rewrite K. apply C. rewrite P1. rewrite !in_app_iff in *. tauto.
    + intros J. clear -N1 I J. revert N1. rewrite in_app_iff in I. clear -I J. intros N1.
      destruct I as [I|I].
      * apply in_split in I as (u & v & ->). rewrite <- app_assoc in N1. cbn [app] in N1.
        apply NoDup_remove_2 in N1. apply N1. rewrite !in_app_iff. tauto.
      * apply in_split in J as (u & v & E). rewrite E, <- app_assoc in N1. cbn [app] in N1. rewrite app_assoc in N1.
        apply NoDup_remove_2 in N1. apply N1. rewrite !in_app_iff. tauto.
Qed.

(** * Every statement keeps the invariant *)

Definition iframe (body : block) : Prop := forall x x', body x = COk x' -> swf x -> inv x -> inv x'.

Definition gen_only (x x' : sst) : Prop :=
  t_do (fst x') = t_do (fst x) /\ t_for (fst x') = t_for (fst x) /\ t_exits (fst x') = t_exits (fst x) /\
  filled (s_gen x) (s_gen x').

Lemma steady_gen body x x' : (forall P, steady P -> bsteady P body) -> body x = COk x' -> gen_only x x'.
Proof.
  intros B H. refine (wp_ok _ (fun x' => gen_only x x') _ H _).
  apply (B _ (filled_steady (s_gen x))); [apply filled_refl|]. intros y (S1 & S2 & S3 & _) F. repeat (split; [assumption|]). exact F.
Qed.
Lemma emit_gen i pos x : gen_only x (s_emit i pos x).
Proof.
  repeat (split; [reflexivity|]). eapply filled_code; [apply filled_refl| |reflexivity|].
  - change (next_pc (s_gen (s_emit i pos x))) with (s_pc (s_emit i pos x)). rewrite s_emit_pc. unfold s_pc. lia.
  - intros a L. apply (code_emit_lt i pos x a L).
Qed.
Lemma fixup_gen f pos x : gen_only x (emit_fixup f pos x).
Proof. repeat (split; [reflexivity|]). apply (filled_add (s_gen x) (s_gen x)), filled_refl. Qed.
Lemma guard_gen e x r x' : guard_expr e x = COk (r, x') -> gen_only x x'.
Proof.
  intros H. refine (wp_ok _ (fun q => gen_only x (snd q)) _ H _).
  apply (guard_st _ (filled_steady (s_gen x))); [apply filled_refl|]. intros r0 y (S1 & S2 & S3 & _) F.
  cbn [snd]. repeat (split; [assumption|]). exact F.
Qed.
Lemma assignment_gen v vpos e x x' : s_assignment v vpos e x = COk x' -> gen_only x x'.
Proof. apply steady_gen. intros P K. apply s_assignment_st, K. Qed.
Lemma for_iterator_gen i ip d x x' : for_iterator i ip d x = COk x' -> swf x -> gen_only x x'.
Proof.
  intros H W. destruct (for_iterator_frame _ _ _ _ _ H W) as [_ F]. unfold gen_only, s_gen. rewrite F.
  repeat (split; [reflexivity|]). apply filled_refl.
Qed.

Lemma inv_gen x x' : inv x -> sgrows (s_pc x) x x' -> gen_only x x' -> inv x'.
Proof. intros I G (A & B & C & D). eapply inv_grows; eassumption. Qed.

(** One step of a chain. *)
Record ok (x : sst) : Prop := mkOk { ok_wf : swf x; ok_inv : inv x }.

Lemma ok_emit i pos x : ok x -> ok (s_emit i pos x) /\ sgrows (s_pc x) x (s_emit i pos x).
Proof.
  intros [W I]. pose proof (sgrows_emit (s_pc x) i pos x W (le_n _)) as G. split; [|exact G].
  split; [eapply sgrows_swf; eassumption|apply inv_emit; exact I].
Qed.
Lemma ok_guard e x r x' : guard_expr e x = COk (r, x') -> ok x -> ok x' /\ sgrows (s_pc x) x x' /\ s_pc x < s_pc x'.
Proof.
  intros H [W I]. destruct (guard_frame _ _ _ _ H W) as (G & L & _). split; [|auto].
  split; [eapply sgrows_swf; eassumption|eapply inv_gen; [exact I|exact G|eapply guard_gen, H]].
Qed.
Lemma ok_assign v vpos e x x' : s_assignment v vpos e x = COk x' -> ok x ->
  ok x' /\ sgrows (s_pc x) x x' /\ s_pc x < s_pc x'.
Proof.
  intros H [W I]. destruct (assignment_frame _ _ _ _ _ H W) as (G & L). split; [|auto].
  split; [eapply sgrows_swf; eassumption|eapply inv_gen; [exact I|exact G|eapply assignment_gen, H]].
Qed.
Lemma ok_body body x x' : bframe body -> iframe body -> body x = COk x' -> ok x ->
  ok x' /\ sgrows (s_pc x) x x' /\ s_pc x <= s_pc x'.
Proof.
  intros B F H [W I]. pose proof (B _ _ H W) as G. split; [|split; [exact G|eapply sgrows_pc, G]].
  split; [eapply sgrows_swf; eassumption|eapply F; eassumption].
Qed.
Lemma ok_patch a i x : ok x -> ~ In a (pend x) -> ok (s_patch a i x).
Proof.
  intros [W I] N1. split; [|apply inv_patch; assumption].
  eapply sgrows_swf; [apply (sgrows_patch 0 a i x); lia|exact W].
Qed.

Lemma ok_while e body : bframe body -> iframe body -> forall x x', compile_while e body x = COk x' -> ok x -> ok x'.
Proof.
  intros B F x x' H O. unfold compile_while in H. inv_ok.
  destruct (ok_guard _ _ _ _ E O) as (O1 & G1 & L1).
  destruct (ok_emit INop (start_pos e) s O1) as [O2 G2].
  destruct (ok_body _ _ _ B F E0 O2) as (O3 & G3 & L3).
  destruct (ok_emit (IJump a0) (start_pos e) a O3) as [O4 G4]. rewrite s_emit_pc in *.
  apply ok_patch; [exact O4|].
  assert (G5 : sgrows (S (s_pc s)) (s_emit INop (start_pos e) s) (s_emit (IJump a0) (start_pos e) a)).
  { eapply sgrows_trans; [exact G3|]. eapply sgrows_weaken; [exact G4|lia]. }
  intros H. destruct (pend_grows _ _ _ _ G5 H) as [K|K]; [|lia]. apply (inv_lt s) in K; [lia|apply O1].
Qed.



(** A placeholder is not among the pending ones of what comes after it. *)
Definition notin (a : nat) (x : sst) : Prop := ~ In a (pend x).
Lemma notin_now x : ok x -> notin (s_pc x) x.
Proof. intros [_ I] H. pose proof (inv_lt _ _ I H). lia. Qed.
Lemma notin_above a x : ok x -> s_pc x <= a -> notin a x.
Proof. intros [_ I] L H. pose proof (inv_lt _ _ I H). lia. Qed.
Lemma notin_step a b x y : sgrows b x y -> a < b -> notin a x -> notin a y.
Proof. intros G L N1 H. destruct (pend_grows _ _ _ _ G H) as [K|K]; [contradiction|lia]. Qed.
Lemma notin_emit a i pos x : notin a x -> notin a (s_emit i pos x).
Proof. exact (fun H => H). Qed.
Lemma notin_patch a b i x : notin a x -> notin a (s_patch b i x).
Proof. exact (fun H => H). Qed.

Lemma ok_jumps l target x y x' : ok y -> patch_jumps l target x = COk x' -> swf x ->
  (forall p, code_at x p = code_at y p) -> s_pc x = s_pc y ->
  (exists l1 l2, pend y = l1 ++ map fst l ++ l2 /\ pend x = l1 ++ l2) -> ok x'.
Proof.
  intros O H W C P K. split; [|eapply inv_jumps; [apply O|exact H|exact C|exact P|exact K]].
  destruct (patch_jumps_frame 0 (s_pc y) l target x x') as [G _]; [|exact H|eapply sgrows_swf; eassumption].
  destruct K as (l1 & l2 & K & _). apply Forall_forall. intros p I. split; [lia|]. apply (inv_lt y); [apply O|].
  rewrite K, !in_app_iff. right. left. apply in_map. exact I.
Qed.

(** A chain of steps with all that is known about the last state. *)
Ltac kforward :=
  repeat match goal with
  | O : ok ?x, E : guard_expr _ ?x = COk (_, ?y) |- _ =>
      let K := fresh "O" in let G := fresh "G" in let L := fresh "L" in
      destruct (ok_guard _ _ _ _ E O) as (K & G & L); clear E
  | O : ok ?x, E : s_assignment _ _ _ ?x = COk ?y |- _ =>
      let K := fresh "O" in let G := fresh "G" in let L := fresh "L" in
      destruct (ok_assign _ _ _ _ _ E O) as (K & G & L); clear E
  | O : ok ?x, B : bframe ?body, F : iframe ?body, E : ?body ?x = COk ?y |- _ =>
      let K := fresh "O" in let G := fresh "G" in let L := fresh "L" in
      destruct (ok_body _ _ _ B F E O) as (K & G & L); clear E
  | O : ok ?x |- context [s_emit ?i ?p ?x] =>
      lazymatch goal with
      | _ : ok (s_emit i p x) |- _ => fail
      | _ => let K := fresh "O" in let G := fresh "G" in destruct (ok_emit i p x O) as [K G]
      end
  | O : ok ?x, E : context [s_emit ?i ?p ?x] |- _ =>
      lazymatch goal with
      | _ : ok (s_emit i p x) |- _ => fail
      | _ => let K := fresh "O" in let G := fresh "G" in destruct (ok_emit i p x O) as [K G]
      end
  | O : ok ?x, E : context [s_patch ?a ?i ?x] |- _ =>
      lazymatch goal with
      | _ : ok (s_patch a i x) |- _ => fail
      | _ => let K := fresh "O" in assert (K : ok (s_patch a i x)) by (apply ok_patch; [exact O|knotin])
      end
  end
with knotin :=
  rewrite ?s_patch_pc, ?s_emit_pc in *;
  repeat first
    [ assumption
    | match goal with O : ok ?x |- notin ?a ?x => apply (notin_above a x O); rewrite ?s_patch_pc, ?s_emit_pc in *; lia end
    | match goal with |- ~ In ?a (pend ?x) => change (notin a x) end
    | apply notin_emit | apply notin_patch
    | match goal with G : sgrows ?b ?y ?x |- notin ?a ?x => apply (notin_step a b y x G); [rewrite ?s_patch_pc, ?s_emit_pc in *; lia|] end ].

Definition do_inner (g : do_guard) (body : block) (x : sst) : cres sst :=
  match g with
  | GInfinite =>
      let* y := body x in
      let* t := target_at (s_pc x) (0, 0)%N in
      COk (s_emit (IJump t) (0, 0)%N y)
  | GPreUntil e =>
      let pos := start_pos e in
      let* (r, y) := guard_expr e x in
      let jump_body := s_pc y in
      let y := s_emit INop pos y in
      let jump_end := s_pc y in
      let y := s_emit INop pos y in
      let* t := target_at (s_pc y) pos in
      let y := s_patch jump_body (IJumpIfFalse r t) y in
      let* y := body y in
      let* t := target_at (s_pc x) pos in
      let y := s_emit (IJump t) pos y in
      let* t := target_at (s_pc y) pos in
      COk (s_patch jump_end (IJump t) y)
  | GPreWhile e => compile_while e body x
  | GPostUntil e =>
      let* y := body x in
      let* (r, y) := guard_expr e y in
      let* t := target_at (s_pc x) (start_pos e) in
      COk (s_emit (IJumpIfFalse r t) (start_pos e) y)
  | GPostWhile e =>
      let pos := start_pos e in
      let* y := body x in
      let* (r, y) := guard_expr e y in
      let jump_end := s_pc y in
      let y := s_emit INop pos y in
      let* t := target_at (s_pc x) pos in
      let y := s_emit (IJump t) pos y in
      let* t := target_at (s_pc y) pos in
      COk (s_patch jump_end (IJumpIfFalse r t) y)
  end.
Definition do_push (x : sst) : sst := (set_do ([] :: t_do (fst x)) (fst x), snd x).
Definition do_end (y : sst) : cres sst :=
  match t_do (fst y) with
  | [] => CPanic
  | exits :: rest => patch_jumps exits (s_pc y) (set_do rest (fst y), snd y)
  end.
Lemma compile_do_eq g body x : compile_do g body x = let* y := do_inner g body (do_push x) in do_end y.
Proof. destruct g; reflexivity. Qed.

Lemma do_inner_grows g body x y : bframe body -> do_inner g body x = COk y -> swf x -> sgrows (s_pc x) x y.
Proof.
  intros B H W. pose proof (ext_start x W) as K. assert (Lb := proj2 (proj2 K)).
  assert (R : ext (s_pc x) x y); [|apply R].
  destruct g as [|e|e|e|e]; cbn [do_inner] in H; [| |eapply ext_while; eassumption| |];
      inv_ok; sforward; send.
Qed.

Lemma ok_do_inner g body x y : bframe body -> iframe body -> do_inner g body x = COk y -> ok x -> ok y.
Proof.
  intros B F H O. destruct g as [|e|e|e|e]; cbn [do_inner] in H; [| |eapply ok_while; eassumption| |].
  - inv_ok. kforward. assumption.
  - inv_ok. kforward. apply ok_patch; [assumption|]. knotin.
  - inv_ok. kforward. assumption.
  - inv_ok. kforward. apply ok_patch; [assumption|]. knotin.
Qed.

Lemma ok_do_push x : ok x -> ok (do_push x).
Proof. intros [W I]. split; [exact W|exact I]. Qed.

Lemma do_end_ok x y x' : sgrows (s_pc x) (do_push x) y -> ok y -> do_end y = COk x' ->
  exists exits, t_do (fst y) = exits :: t_do (fst x) /\ ok x' /\ s_pc x' = s_pc y /\ snd x' = snd y /\
    t_do (fst x') = t_do (fst x) /\ t_for (fst x') = t_for (fst y) /\ t_exits (fst x') = t_exits (fst y) /\
    s_gen x' = s_gen x' /\
    (forall a, In a (map fst exits) -> exists t, code_at x' a = Some (IJump t) /\ N.to_nat t = s_pc y) /\
    (forall a i, code_at y a = Some i -> i <> INop -> code_at x' a = Some i) /\
    (forall a, ~ In a (map fst exits) -> code_at x' a = code_at y a).
Proof.
  intros G O H. unfold do_push in G. destruct (do_pop _ _ _ G) as (exits & Q & I & G2). unfold do_end in H. rewrite Q in H.
  assert (PY : pend y = map fst (g_fixups (s_gen y)) ++ map fst exits ++ map fst (concat (t_do (fst x)) ++ concat (t_for (fst y)) ++ t_exits (fst y))).
  { unfold pend. rewrite Q. cbn [concat app]. rewrite !map_app. rewrite <- !app_assoc. reflexivity. }
  destruct (jumps_spec _ _ _ _ H) as (A & B & C & D & g & E).
  { intros a J. apply (inv_lt y); [apply O|]. rewrite PY, !in_app_iff. tauto. }
  exists exits. split; [exact Q|]. split.
  { eapply ok_jumps; [exact O|exact H|exact (ok_wf _ O)|reflexivity|reflexivity|].
    eexists _, _. split; [exact PY|]. reflexivity. }
  split; [exact C|]. split; [exact D|]. rewrite E. do 4 (split; [reflexivity|]). split; [exact A|]. split; [|exact B].
  intros a i Ca Ni. rewrite B; [exact Ca|]. intros J. apply Ni.
  assert (K : code_at y a = Some INop) by (apply O; rewrite PY, !in_app_iff; tauto). congruence.
Qed.

Lemma ok_do g body : bframe body -> iframe body -> forall x x', compile_do g body x = COk x' -> ok x -> ok x'.
Proof.
  intros B F x x' H O. rewrite compile_do_eq in H. apply bind_ok in H as (y & H1 & H2).
  pose proof (ok_do_push _ O) as O1. pose proof (do_inner_grows _ _ _ _ B H1 (ok_wf _ O1)) as G.
  destruct (do_end_ok x y x' G (ok_do_inner _ _ _ _ B F H1 O1) H2) as (e & _ & K & _). exact K.
Qed.

(** FOR after its iterator has been assigned. *)
Definition for_push (x : sst) : sst := (set_for ([] :: t_for (fst x)) (fst x), snd x).
Definition for_mark (a : nat) (x : sst) : sst := (set_gen (mark_statement_start a (s_gen x)) (fst x), snd x).
Definition for_end (end_addr : nat) (y : sst) : cres sst :=
  match t_for (fst y) with
  | [] => CPanic
  | exits :: rest => patch_jumps exits end_addr (set_for rest (fst y), snd y)
  end.
Definition for_tail (iter : varref) (iter_pos : linecol) (end_ next : expr) (body : block) (x : sst) : cres sst :=
  let pos := start_pos end_ in
  let* (r, y) := guard_expr end_ x in
  let* z := body (for_push (for_mark (s_pc x) (s_emit INop pos y))) in
  let* z := s_assignment iter iter_pos next z in
  let* t := target_at (s_pc x) pos in
  let z := s_emit (IJump t) pos z in
  let end_addr := s_pc z in
  let* t := target_at end_addr pos in
  for_end end_addr (s_patch (s_pc y) (IJumpIfFalse r t) z).
Lemma compile_for_eq iter ipos d start end_ next body x : compile_for iter ipos d start end_ next body x =
  let* x := for_iterator iter ipos d x in
  let* x := s_assignment iter ipos start x in
  for_tail iter ipos end_ next body x.
Proof. reflexivity. Qed.

Lemma ok_for_push x : ok x -> ok (for_push x).
Proof.
  intros [W [I J]]. split; [exact W|]. split; [exact I|exact J].
Qed.
Lemma ok_for_mark a x : ok x -> ok (for_mark a x).
Proof.
  intros [W I]. split; [|exact I].
  eapply sgrows_swf; [|exact W]. apply (sgrows_gen 0 x); [apply grows_mark; lia|apply lgrows_refl].
Qed.

Lemma for_end_ok x y x' b : sgrows b (for_push x) y -> ok y -> for_end (s_pc y) y = COk x' ->
  exists exits, t_for (fst y) = exits :: t_for (fst x) /\ ok x' /\ s_pc x' = s_pc y /\ snd x' = snd y /\
    t_for (fst x') = t_for (fst x) /\ t_do (fst x') = t_do (fst y) /\ t_exits (fst x') = t_exits (fst y) /\
    sgrows b x x' /\
    (forall a, In a (map fst exits) -> exists t, code_at x' a = Some (IJump t) /\ N.to_nat t = s_pc y) /\
    (forall a i, code_at y a = Some i -> i <> INop -> code_at x' a = Some i) /\
    (forall a, ~ In a (map fst exits) -> code_at x' a = code_at y a).
Proof.
  intros G O H. unfold for_push in G. destruct (for_pop _ _ _ G) as (exits & Q & I & G2). unfold for_end in H. rewrite Q in H.
  assert (PY : pend y = (map fst (g_fixups (s_gen y)) ++ map fst (concat (t_do (fst y)))) ++ map fst exits ++
    map fst (concat (t_for (fst x)) ++ t_exits (fst y))).
  { unfold pend. rewrite Q. cbn [concat]. rewrite !map_app. rewrite <- !app_assoc. reflexivity. }
  destruct (jumps_spec _ _ _ _ H) as (A & B & C & D & g & E).
  { intros a J. apply (inv_lt y); [apply O|]. rewrite PY, !in_app_iff. tauto. }
  exists exits. split; [exact Q|]. split.
  { eapply ok_jumps; [exact O|exact H|exact (ok_wf _ O)|reflexivity|reflexivity|].
    eexists _, _. split; [exact PY|]. unfold pend. cbn [set_for fst snd t_do t_for t_exits]. rewrite !map_app, <- !app_assoc. reflexivity. }
  split; [exact C|]. split; [exact D|]. rewrite E. do 3 (split; [reflexivity|]).
  split; [eapply sgrows_trans; [exact G2|]; eapply patch_jumps_frame; eassumption|].
  split; [exact A|]. split; [|exact B].
  intros a i Ca Ni. rewrite B; [exact Ca|]. intros J. apply Ni.
  assert (K : code_at y a = Some INop) by (apply O; rewrite PY, !in_app_iff; tauto). congruence.
Qed.

Lemma for_tail_body iter ipos end_ next body x x' : bframe body -> iframe body ->
  for_tail iter ipos end_ next body x = COk x' -> ok x ->
  exists r y z w t1 t2, guard_expr end_ x = COk (r, y) /\
    body (for_push (for_mark (s_pc x) (s_emit INop (start_pos end_) y))) = COk z /\
    s_assignment iter ipos next z = COk w /\
    N.to_nat t1 = s_pc x /\ N.to_nat t2 = S (s_pc w) /\
    let v := s_patch (s_pc y) (IJumpIfFalse r t2) (s_emit (IJump t1) (start_pos end_) w) in
    for_end (s_pc v) v = COk x' /\ ok y /\ ok z /\ ok w /\ ok v /\ s_pc v = S (s_pc w) /\
    s_pc x < s_pc y /\ S (s_pc y) <= s_pc z /\ s_pc z < s_pc w /\
    sgrows (s_pc x) x y /\ sgrows (S (s_pc y)) (for_push (for_mark (s_pc x) (s_emit INop (start_pos end_) y))) z /\
    sgrows (s_pc z) z w /\
    sgrows (s_pc y) (for_push (for_mark (s_pc x) (s_emit INop (start_pos end_) y))) v.
Proof.
  intros B F H O. unfold for_tail in H. inv_ok.
  destruct (ok_guard _ _ _ _ E O) as (O1 & G1 & L1).
  destruct (ok_emit INop (start_pos end_) s O1) as [O2 _].
  pose proof (ok_for_push _ (ok_for_mark (s_pc x) _ O2)) as O3.
  destruct (ok_body _ _ _ B F E0 O3) as (O4 & G4 & L4).
  destruct (ok_assign _ _ _ _ _ E1 O4) as (O5 & G5 & L5).
  set (w := s_emit (IJump a1) (start_pos end_) a0) in *.
  destruct (ok_emit (IJump a1) (start_pos end_) a0 O5) as [O6 G6]. fold w in O6, G6.
  assert (PB : s_pc (for_push (for_mark (s_pc x) (s_emit INop (start_pos end_) s))) = S (s_pc s)) by apply s_emit_pc.
  rewrite PB in *.
  assert (PW : s_pc w = S (s_pc a0)) by apply s_emit_pc.
  assert (OV : ok (s_patch (s_pc s) (IJumpIfFalse n a2) w)).
  { apply ok_patch; [exact O6|]. change (notin (s_pc s) w). unfold w. apply notin_emit.
    eapply notin_step; [exact G5|lia|]. eapply notin_step; [exact G4|lia|]. apply (notin_now s O1). }
  exists n, s, a, a0, a1, a2. apply target_eq in E2. apply target_eq in E3.
  split; [exact E|]. split; [exact E0|]. split; [exact E1|]. split; [exact E2|]. split; [congruence|].
  cbv zeta. fold w. rewrite s_patch_pc. split; [exact H|].
  do 4 (split; [assumption|]). split; [exact PW|]. split; [exact L1|]. split; [exact L4|]. split; [exact L5|].
  split; [exact G1|]. split; [exact G4|]. split; [exact G5|].
  eapply sgrows_trans; [|apply sgrows_patch; apply le_n].
  eapply sgrows_trans; [eapply sgrows_weaken; [exact G4|lia]|].
  eapply sgrows_trans; [eapply sgrows_weaken; [exact G5|lia]|]. eapply sgrows_weaken; [exact G6|lia].
Qed.

Lemma ok_for iter ipos d start end_ next body : bframe body -> iframe body -> forall x x',
  compile_for iter ipos d start end_ next body x = COk x' -> ok x -> ok x'.
Proof.
  intros B F x x' H O. rewrite compile_for_eq in H. inv_ok.
  assert (O1 : ok a).
  { destruct (for_iterator_frame _ _ _ _ _ E (ok_wf _ O)) as [G FS]. split; [eapply sgrows_swf; [exact G|apply O]|].
    eapply inv_gen; [apply O|exact G|]. eapply for_iterator_gen; [exact E|apply O]. }
  destruct (ok_assign _ _ _ _ _ E0 O1) as (O2 & _).
  destruct (for_tail_body _ _ _ _ _ _ _ B F H O2) as (r & y & z & w & t1 & t2 & _ & _ & _ & _ & _ & K).
  cbv zeta in K. destruct K as (K1 & _ & _ & _ & K2 & _ & _ & _ & _ & _ & _ & _ & G).
  destruct (for_end_ok _ _ _ _ G K2 K1) as (e & _ & K & _). exact K.
Qed.


(** Patching placeholders that are not pending. *)
Lemma ok_patches l target : forall x x', patch_jumps l target x = COk x' -> ok x ->
  (forall a, In a (map fst l) -> notin a x) -> ok x' /\ pend x' = pend x /\ s_pc x' = s_pc x.
Proof.
  induction l as [|[a p] l IH]; intros x x' H O N1; cbn [patch_jumps map] in *.
  - apply COk_inj in H. subst x'. auto.
  - inv_ok. destruct (IH _ _ H) as (A & B & C).
    + apply ok_patch; [exact O|]. apply N1. left. reflexivity.
    + intros b I. apply notin_patch, N1. right. exact I.
    + split; [exact A|]. split; [exact B|]. rewrite C. apply s_patch_pc.
Qed.

Definition marks (x : sst) (l : list nat) : Prop := forall a, In a l -> a < s_pc x /\ notin a x.

Lemma marks_step b x y l : marks x l -> sgrows b x y -> s_pc x <= b -> marks y l.
Proof.
  intros M G L a I. destruct (M a I) as [A B]. pose proof (sgrows_pc _ _ _ G). split; [lia|].
  eapply notin_step; [exact G|lia|exact B].
Qed.
Lemma marks_patch a i x l : marks x l -> marks (s_patch a i x) l.
Proof. intros M b I. rewrite s_patch_pc. apply (M b I). Qed.
Lemma marks_emit i p x l : ok x -> marks x l -> marks (s_emit i p x) (l ++ [s_pc x]).
Proof.
  intros O M b I. rewrite s_emit_pc. apply in_app_iff in I as [I|[<-|[]]].
  - destruct (M b I). split; [lia|assumption].
  - split; [lia|]. apply (notin_above _ x); [exact O|lia].
Qed.

Lemma ok_branches bs : Forall (fun p => bframe (snd p) /\ iframe (snd p)) bs -> forall ends x ends' x',
  compile_branches bs ends x = COk (ends', x') -> ok x -> marks x ends -> ok x' /\ marks x' ends'.
Proof.
  induction 1 as [|[e body] bs [B F] BS IH]; intros ends x ends' x' H O M; cbn [compile_branches] in H.
  - inv_ok. auto.
  - cbn [snd] in B, F. inv_ok. destruct (ok_guard _ _ _ _ E O) as (O1 & G1 & L1).
    destruct (ok_emit INop (start_pos e) s O1) as [O2 G2].
    destruct (ok_body _ _ _ B F E0 O2) as (O3 & G3 & L3). rewrite s_emit_pc in *.
    assert (M3 : marks a ends).
    { eapply marks_step; [eapply marks_step; [eapply marks_step; [exact M|exact G1|lia]|exact G2|lia]|exact G3|]. rewrite s_emit_pc. lia. }
    assert (N3 : notin (s_pc s) a).
    { eapply notin_step; [exact G3|lia|]. apply notin_emit, notin_now, O1. }
    destruct bs as [|p bs].
    + inv_ok. eapply IH; [exact H| |].
      * apply ok_patch; assumption.
      * apply marks_patch. exact M3.
    + inv_ok. destruct (ok_emit INop (start_pos e) a O3) as [O4 G4]. eapply IH; [exact H| |].
      * apply ok_patch; assumption.
      * apply marks_patch. apply marks_emit; assumption.
Qed.

Lemma ok_if bs : Forall (fun p => bframe (snd p) /\ iframe (snd p)) bs -> forall x x',
  compile_if bs x = COk x' -> ok x -> ok x'.
Proof.
  intros B x x' H O. unfold compile_if in H. inv_ok.
  destruct (ok_branches _ B _ _ _ _ E O) as [O1 M]; [intros a []|].
  destruct (ok_patches _ _ _ _ H O1) as (K & _); [|exact K].
  intros a I. rewrite map_map in I. cbn [fst] in I. rewrite map_id in I. apply M. exact I.
Qed.

(** SELECT: what the dispatch code leaves to be patched lies in its own range. *)
Definition jumps_in (b e : nat) (l : list (nat * linecol)) : Prop := Forall (fun p => b <= fst p < e) l.
Definition next_in (b e : nat) (n : option (nat * linecol)) : Prop :=
  match n with Some (a, _) => b <= a < e | None => True end.

Lemma jumps_in_weaken b e e' l : jumps_in b e l -> e <= e' -> jumps_in b e' l.
Proof. intros H L. eapply Forall_impl; [|exact H]. cbn. lia. Qed.

Lemma case_guards_range b l tr tt_ gs : forall jumps st jumps' st',
  case_guards l tr tt_ gs jumps st = COk (jumps', st') -> gwf (fst st) -> b <= next_pc (fst st) ->
  jumps_in b (next_pc (fst st)) jumps ->
  jumps_in b (next_pc (fst st')) jumps' /\ gwf (fst st') /\ next_pc (fst st) <= next_pc (fst st').
Proof.
  induction gs as [|g gs IH]; intros jumps st jumps' st' H W L J; cbn [case_guards] in H.
  - inv_ok. auto.
  - inv_ok. pose proof (case_guard_frame _ _ _ _ _ _ _ _ E W) as [G _]. pose proof (gr_len _ _ _ G) as P.
    assert (W1 := grows_gwf _ _ _ G W).
    apply IH in H.
    + rewrite e_patch_pc, !e_emit_pc in H. destruct H as (A & B & C). split; [exact A|]. split; [exact B|lia].
    + apply (eext_patch 0 (e_emit INop l0 (e_emit INop l0 e))); [|lia]. split; [split; [apply grows_refl|reflexivity]|].
      split; [|lia]. apply (eext_emit 0 e), (eext_emit 0 e). split; [split; [apply grows_refl|reflexivity]|]. split; [exact W1|lia].
    + rewrite e_patch_pc, !e_emit_pc. lia.
    + rewrite e_patch_pc, !e_emit_pc. apply Forall_app. split; [eapply jumps_in_weaken; [exact J|lia]|].
      constructor; [|constructor]. cbn [fst]. lia.
Qed.

Definition pend_in (b e : nat) (p : block * list (nat * linecol) * bool) : Prop := jumps_in b e (snd (fst p)).

Lemma dispatch_range b l tr tt_ ep cs : forall next pend0 st pend' next' st',
  select_dispatch l tr tt_ ep cs next pend0 st = COk (pend', next', st') -> gwf (fst st) -> b <= next_pc (fst st) ->
  next_in b (next_pc (fst st)) next -> Forall (pend_in b (next_pc (fst st))) pend0 ->
  next_in b (next_pc (fst st')) next' /\ Forall (pend_in b (next_pc (fst st'))) pend'.
Proof.
  induction cs as [|[gs body] cs IH]; intros next pend0 st pend' next' st' H W L N1 P; cbn [select_dispatch] in H.
  - inv_ok. auto.
  - apply bind_ok in H as (st1 & E & H).
    assert (K1 : gwf (fst st1) /\ next_pc (fst st1) = next_pc (fst st)).
    { unfold patch_next in E. destruct next as [[a p]|]; inv_ok; [|auto]. rewrite e_patch_pc. split; [|reflexivity].
      eapply grows_gwf; [apply (grows_patch 0); lia|exact W]. }
    destruct K1 as [W1 P1]. destruct gs as [|g gs].
    + apply IH in H; [exact H| | |exact I|].
      * eapply grows_gwf; [apply (grows_emit 0); [exact W1|lia]|exact W1].
      * rewrite e_emit_pc. lia.
      * rewrite e_emit_pc. apply Forall_app. split.
        -- eapply Forall_impl; [|exact P]. intros q Q. eapply jumps_in_weaken; [exact Q|lia].
        -- constructor; [|constructor]. constructor; [|constructor]. cbn [fst]. lia.
    + inv_ok. destruct (case_guards_range b _ _ _ _ _ _ _ _ E0 W1) as (J & W2 & P2); [lia|constructor|].
      apply IH in H; [exact H| | | |].
      * eapply grows_gwf; [apply (grows_emit 0); [exact W2|lia]|exact W2].
      * rewrite e_emit_pc. lia.
      * rewrite e_emit_pc. cbn [next_in]. lia.
      * rewrite e_emit_pc. apply Forall_app. split.
        -- eapply Forall_impl; [|exact P]. intros q Q. eapply jumps_in_weaken; [exact Q|lia].
        -- constructor; [|constructor]. eapply jumps_in_weaken; [exact J|lia].
Qed.

(** None of these placeholders gets a fixup. *)
Definition jumps_of (pd : list (block * list (nat * linecol) * bool)) : list nat := flat_map (fun p => map fst (snd (fst p))) pd.
Definition next_of (n : option (nat * linecol)) : list nat := match n with Some (a, _) => [a] | None => [] end.
Definition under (g0 : codegen) : Prop := forall a, In a (map fst (g_fixups g0)) -> a < next_pc g0.
Lemma case_guards_avoid g0 l tr tt_ gs : under g0 -> forall others jumps st jumps' st',
  case_guards l tr tt_ gs jumps st = COk (jumps', st') -> filled g0 (fst st) -> avoids (others ++ map fst jumps) (fst st) ->
  filled g0 (fst st') /\ avoids (others ++ map fst jumps') (fst st').
Proof.
  intros U. induction gs as [|g gs IH]; intros others jumps st jumps' st' H F A; cbn [case_guards] in H.
  - inv_ok. auto.
  - inv_ok. pose proof (wp_ok _ (fun q => filled g0 (fst (snd q)) /\ avoids (others ++ map fst jumps) (fst (snd q))) _ E
      (case_guard_st _ (steady_and _ _ (filled_steady g0) (avoids_steady (others ++ map fst jumps))) l tr tt_ g st _ (conj F A)
         (fun c p st' K => K))) as [F1 A1]. cbn [snd] in F1, A1.
    set (e1 := e_emit INop l0 e) in *. assert (F2 : filled g0 (fst e1)) by (apply (st_emit _ (filled_steady g0)); [exact I|exact F1]).
    pose proof (avoids_here _ _ INop l0 _ F1 A1 U) as A2. change (emit INop l0 (fst e)) with (fst e1) in A2.
    set (e2 := e_emit INop l0 e1) in *. assert (F3 : filled g0 (fst e2)) by (apply (st_emit _ (filled_steady g0)); [exact I|exact F2]).
    pose proof (avoids_here _ _ INop l0 _ F2 A2 U) as A3. change (emit INop l0 (fst e1)) with (fst e2) in A3.
    apply (IH others) in H; [exact H| |].
    + apply filled_patch; [exact F3|]. apply (A3 (next_pc (fst e))). right. left. reflexivity.
    + apply (avoids_patch _ (next_pc (fst e)) (IJumpIfFalse n a)). intros b J. apply A3. rewrite map_app, !in_app_iff in J.
      cbn [map fst In] in *. rewrite in_app_iff. tauto.
Qed.
Lemma dispatch_avoid g0 l tr tt_ ep cs : under g0 -> forall next pd st pd' next' st',
  select_dispatch l tr tt_ ep cs next pd st = COk (pd', next', st') -> filled g0 (fst st) ->
  avoids (next_of next ++ jumps_of pd) (fst st) ->
  filled g0 (fst st') /\ avoids (next_of next' ++ jumps_of pd') (fst st').
Proof.
  intros U. induction cs as [|[gs body] cs IH]; intros next pd st pd' next' st' H F A; cbn [select_dispatch] in H.
  - inv_ok. auto.
  - apply bind_ok in H as (st1 & E & H).
    assert (K1 : filled g0 (fst st1) /\ avoids (jumps_of pd) (fst st1)).
    { unfold patch_next in E. destruct next as [[a p]|]; inv_ok.
      - split; [apply filled_patch; [exact F|]; apply (A a); left; reflexivity|].
        apply (avoids_patch _ a (IJump a0)). intros b J. apply A. right. exact J.
      - split; [exact F|exact A]. }
    destruct K1 as [F1 A1].
    assert (SPLIT : forall b j h, jumps_of (pd ++ [(b, j, h)]) = jumps_of pd ++ map fst j).
    { intros b j h. unfold jumps_of. rewrite flat_map_app. cbn [flat_map snd fst]. rewrite app_nil_r. reflexivity. }
    destruct gs as [|g gs].
    + apply IH in H; [exact H| |].
      * apply (st_emit _ (filled_steady g0)); [exact I|exact F1].
      * rewrite SPLIT. cbn [next_of app map fst]. pose proof (avoids_here _ _ INop ep _ F1 A1 U) as A2.
        intros b J. apply A2. rewrite in_app_iff in J. cbn [In] in *. tauto.
    + inv_ok. destruct (case_guards_avoid g0 _ _ _ _ U (jumps_of pd) _ _ _ _ E0 F1) as [F2 A2].
      { cbn [map]. rewrite app_nil_r. exact A1. }
      apply IH in H; [exact H| |].
      * apply (st_emit _ (filled_steady g0)); [exact I|exact F2].
      * rewrite SPLIT. cbn [next_of app]. pose proof (avoids_here _ _ INop ep _ F2 A2 U) as A3. exact A3.
Qed.

Lemma marks_app x a b : marks x (a ++ b) <-> marks x a /\ marks x b.
Proof.
  split.
  - intros H. split; intros c J; apply H, in_app_iff; auto.
  - intros [H1 H2] c J. apply in_app_iff in J as [J|J]; auto.
Qed.
Lemma ok_bodies others ep pd : Forall (fun p => bframe (fst (fst p)) /\ iframe (fst (fst p))) pd ->
  forall ends x ends' x',
  select_bodies ep pd ends x = COk (ends', x') -> ok x -> marks x others -> marks x (jumps_of pd) -> marks x ends ->
  ok x' /\ marks x' ends' /\ marks x' others.
Proof.
  induction pd as [|[[body jumps] hn] pd IH]; intros BF ends x ends' x' H O MO MJ M; cbn [select_bodies] in H.
  - inv_ok. auto.
  - apply Forall_cons_iff in BF as [[B F] BF]. cbn [fst snd] in *. inv_ok.
    unfold jumps_of in MJ. cbn [flat_map snd fst] in MJ. apply marks_app in MJ as [MJ1 MJ2].
    destruct (ok_patches _ _ _ _ E O) as (O1 & P1 & Q1).
    { intros c I. apply MJ1, I. }
    assert (TR : forall l, marks x l -> marks a l) by (intros l K c I; unfold notin; rewrite P1, Q1; apply K, I).
    destruct (ok_body _ _ _ B F E0 O1) as (O2 & G2 & L2).
    assert (T2 : forall l, marks x l -> marks a0 l) by (intros l K; eapply marks_step; [apply TR, K|exact G2|lia]).
    destruct hn.
    + destruct (ok_emit INop ep a0 O2) as [O3 G3].
      assert (T3 : forall l, marks x l -> marks (s_emit INop ep a0) l) by (intros l K; eapply marks_step; [apply T2, K|exact G3|lia]).
      eapply IH; [exact BF|exact H|exact O3|apply T3, MO|apply T3, MJ2|].
      apply marks_emit; [assumption|apply T2, M].
    + eapply IH; [exact BF|exact H|exact O2|apply T2, MO|apply T2, MJ2|apply T2, M].
Qed.

Lemma ok_fold (t : N) l : forall x, ok x -> (forall a, In a l -> notin a x) ->
  ok (fold_left (fun x a => s_patch a (IJump t) x) l x).
Proof.
  induction l as [|a l IH]; intros x O N1; cbn [fold_left]; [exact O|]. apply IH.
  - apply ok_patch; [exact O|]. apply N1. left. reflexivity.
  - intros b I. apply notin_patch, N1. right. exact I.
Qed.

Lemma dispatch_bodies Q l tr tt_ ep cs : Forall (fun p : list case_guard * block => Q (snd p)) cs ->
  forall next pd st pd' next' st', select_dispatch l tr tt_ ep cs next pd st = COk (pd', next', st') ->
  Forall (fun p => Q (fst (fst p))) pd -> Forall (fun p => Q (fst (fst p))) pd'.
Proof.
  induction 1 as [|[gs body] cs B BS IH]; intros next pd st pd' next' st' H P; cbn [select_dispatch] in H.
  - inv_ok. exact P.
  - cbn [snd] in B. apply bind_ok in H as (st1 & E & H). destruct gs as [|g gs].
    + eapply IH; [exact H|]. apply Forall_app. split; [exact P|]. constructor; [exact B|constructor].
    + inv_ok. eapply IH; [exact H|]. apply Forall_app. split; [exact P|]. constructor; [exact B|constructor].
Qed.

Lemma ok_select e cs ep : Forall (fun p => bframe (snd p) /\ iframe (snd p)) cs -> forall x x',
  compile_select e cs ep x = COk x' -> ok x -> ok x'.
Proof.
  intros B x x' H O. unfold compile_select, of_syms in H.
  destruct (reserve_temp (snd x)) as [[tr l]|] eqn:R; [|discriminate]. apply reserve_ok in R as (R1 & R2 & R3).
  cbn [bind] in H. inv_ok.
  set (st0 := (s_gen x, frozen l)) in *. destruct O as [[W W'] IV].
  destruct (compile_expr_frame _ _ _ st0 _ _ E W) as [G P].
  assert (K : eext (s_pc x) st0 e0).
  { split; [exact G|]. split; [eapply egrows_gwf; [exact G|exact W]|]. apply Nat.lt_le_incl. exact P. }
  assert (BF : Forall (fun p : list case_guard * block => bframe (snd p)) cs) by (eapply Forall_impl; [|exact B]; cbn; tauto).
  destruct (dispatch_frame _ _ _ _ _ _ _ BF _ _ _ _ _ _ E0 K I (Forall_nil _)) as (K1 & _ & _).
  pose proof (proj1 (proj2 K)) as We. pose proof (proj2 (proj2 K)) as Le.
  assert (U : under (s_gen x)).
  { intros a9 J. apply (inv_lt x _ IV). apply in_app_iff. left. exact J. }
  assert (F0 : filled (s_gen x) (fst e0)).
  { refine (wp_ok _ (fun q => filled (s_gen x) (fst (fst q))) _ E _).
    apply (compile_expr_st _ (filled_steady (s_gen x))); [apply filled_refl|]. intros st' t' K9. exact K9. }
  destruct (dispatch_range (s_pc x) _ _ _ _ _ _ _ _ _ _ _ E0 We Le I (Forall_nil _)) as [NI PI].
  assert (RNG : forall a9, In a9 (next_of o ++ jumps_of l0) -> a9 < s_pc x -> False).
  { intros a9 J LT9. apply in_app_iff in J as [J|J].
    - destruct o as [[a8 p8]|]; [|destruct J]. destruct J as [<-|[]]. cbn [next_in] in NI. lia.
    - unfold jumps_of in J. apply in_flat_map in J as (q & J1 & J2). rewrite Forall_forall in PI. specialize (PI q J1).
      apply in_map_iff in J2 as (w & <- & J2). unfold pend_in, jumps_in in PI. rewrite Forall_forall in PI. specialize (PI w J2). lia. }
  destruct (dispatch_avoid (s_gen x) _ _ _ _ _ U _ _ _ _ _ _ E0 F0) as [FD AV]; [intros a9 []|].
  pose proof (dispatch_bodies (fun b => bframe b /\ iframe b) _ _ _ _ _ B _ _ _ _ _ _ E0 (Forall_nil _)) as BD.
  destruct K1 as ([K1 T1] & W1 & L1).
  set (x1 := (set_gen (fst e2) (fst x), release_temp (thaw l (snd e2)))) in *.
  assert (G1 : sgrows (s_pc x) x x1).
  { apply sgrows_gen; [exact K1|]. constructor; cbn [release_temp thaw ls_locals ls_global ls_active_temps];
      rewrite ?R1, ?R2; auto using tgrows_refl. rewrite R3. lia. }
  assert (O1 : ok x1).
  { split; [eapply sgrows_swf; [exact G1|split; assumption]|]. eapply inv_gen; [exact IV|exact G1|].
    repeat (split; [reflexivity|]). exact FD. }
  assert (M1 : marks x1 (next_of o ++ jumps_of l0)).
  { intros a9 J. destruct (AV a9 J) as [A1 A2]. split; [exact A1|]. intros H9.
    unfold pend in H9. rewrite in_app_iff in H9. destruct H9 as [H9|H9]; [exact (A2 H9)|].
    assert (LT9 : a9 < s_pc x) by (apply (inv_lt _ _ IV); unfold pend; rewrite in_app_iff; right; exact H9).
    apply (RNG a9 J LT9). }
  set (x2 := s_emit INop ep x1) in *. destruct (ok_emit INop ep x1 O1) as [O2 G2]. fold x2 in O2, G2.
  assert (P2 : s_pc x2 = S (s_pc x1)) by apply s_emit_pc.
  assert (M2 : marks x2 ([] ++ [s_pc x1])) by (apply (marks_emit INop ep x1 [] O1); intros a9 []).
  assert (M2' : marks x2 (next_of o ++ jumps_of l0)) by (eapply marks_step; [exact M1|exact G2|lia]).
  apply marks_app in M2' as [MN MJ]. cbn [app] in M2.
  assert (X3 : ok a /\ marks a (s_pc x1 :: []) /\ marks a (jumps_of l0)).
  { destruct o as [[a9 p9]|]; inv_ok; [|auto]. split; [|split; apply marks_patch; assumption].
    apply ok_patch; [exact O2|]. apply (MN a9). left. reflexivity. }
  destruct X3 as (O3 & Gp3 & P3).
  destruct (ok_bodies _ ep l0 BD _ _ _ _ E2 O3 Gp3 P3) as (O4 & M4 & Gp4); [intros a9 []|].
  assert (ND4 : notin (s_pc x1) s) by (apply Gp4; left; reflexivity).
  apply ok_fold.
  - apply ok_patch; assumption.
  - intros c I9. apply notin_patch, M4. exact I9.
Qed.

Lemma NoDup_prefix {A} (a b : list A) : NoDup (a ++ b) -> NoDup a.
Proof.
  induction a as [|x a IH]; intros H; [constructor|]. cbn [app] in H. inversion H; subst.
  constructor; [|apply IH; assumption]. intros I. apply H2, in_app_iff. auto.
Qed.

Lemma ok_user_callable name np ps body ep : bframe body -> iframe body -> forall x x',
  compile_user_callable name np ps body ep x = COk x' -> ok x -> ok x'.
Proof.
  intros B F x x' H O. assert (BF := user_callable_frame name np ps body ep B x x' H (ok_wf _ O)).
  assert (W' := sgrows_swf _ _ _ BF (ok_wf _ O)). split; [exact W'|]. clear BF W'.
  destruct O as [W I0]. unfold compile_user_callable in H.
  destruct (t_current (fst x)) eqn:CUR; [discriminate|]. pose proof (proj2 W CUR) as EX.
  set (x1 := s_emit INop np x) in *. cbn zeta in H.
  destruct (ok_emit INop np x (mkOk _ W I0)) as [O1 G1]. fold x1 in O1, G1.
  assert (P1 : s_pc x1 = S (s_pc x)) by apply s_emit_pc.
  set (kind := match vr_type name with Some _ => KFunction | None => KSub end) in *.
  set (x2 := (set_current (Some kind) (fst x1), enter_scope (ls_global (snd x)))) in *.
  assert (O2 : ok x2).
  { split; [|exact (ok_inv _ O1)]. split; [exact (proj1 (ok_wf _ O1))|]. cbn. discriminate. }
  inv_ok.
  assert (G3 := define_result_ext _ _ _ _ _ E (ok_wf _ O2)).
  assert (O3 : ok a).
  { split; [eapply sgrows_swf; [exact G3|apply O2]|]. eapply inv_gen; [apply O2|exact G3|].
    eapply steady_gen; [|exact E]. intros P K. apply result_st, K. }
  apply define_params_grows in E0.
  assert (O4 : ok (fst a, a0)).
  { split; [|exact (ok_inv _ O3)]. eapply sgrows_swf; [apply (sgrows_syms 0 a a0 E0)|apply O3]. }
  destruct (ok_body _ _ _ B F E1 O4) as (O5 & G5 & L5).
  destruct (ok_emit IReturn ep a1 O5) as [O6 G6].
  set (y := s_emit IReturn ep a1) in *.
  destruct (jumps_spec _ _ _ _ E2) as (A & J & C & D & g & FS).
  { intros c I. apply (inv_lt y); [apply O6|]. unfold pend. rewrite !map_app, !in_app_iff. tauto. }
  assert (NS : notin (s_pc x) y).
  { apply notin_emit. eapply notin_step; [exact G5| |]. 
    - pose proof (sgrows_pc _ _ _ G3). change (s_pc x2) with (s_pc x1) in *. change (s_pc (fst a, a0)) with (s_pc a). lia.
    - change (notin (s_pc x) a). eapply notin_step; [exact G3|change (s_pc x2) with (s_pc x1); lia|].
      apply (notin_now x). split; assumption. }
  assert (IV : inv (set_current None (set_exits [] (fst a2)), snd a2)).
  { pose proof (jumps_fixups _ _ _ _ E2) as JF.
    assert (PY : pend y = (map fst (g_fixups (s_gen y)) ++ map fst (concat (t_do (fst y)) ++ concat (t_for (fst y)))) ++ map fst (t_exits (fst y))).
    { unfold pend. rewrite !map_app, <- !app_assoc. reflexivity. }
    assert (PA : pend (set_current None (set_exits [] (fst a2)), snd a2) =
      map fst (g_fixups (s_gen y)) ++ map fst (concat (t_do (fst y)) ++ concat (t_for (fst y)))).
    { rewrite <- JF. unfold pend. rewrite FS. cbn [set_current set_exits set_gen t_do t_for t_exits fst snd].
      change (s_gen (set_current None (set_exits [] (set_gen g (fst y))), snd a2)) with g. change (s_gen a2) with (t_gen (fst a2)). rewrite FS.
      cbn [set_gen t_gen]. rewrite app_nil_r. reflexivity. }
    destruct (ok_inv _ O6) as [ND CD]. rewrite PY in ND. split; rewrite PA.
    - eapply NoDup_prefix. exact ND.
    - intros c I. change (code_at a2 c = Some INop). rewrite J.
      + apply CD. rewrite PY. apply in_app_iff. left. exact I.
      + intros K. apply in_split in I as (u & v & Q). rewrite Q, <- app_assoc in ND. cbn [app] in ND.
        apply NoDup_remove_2 in ND. apply ND. rewrite !in_app_iff. tauto. }
  assert (NX : notin (s_pc x) (set_current None (set_exits [] (fst a2)), snd a2)).
  { intros K. apply NS. unfold pend in *. change (s_gen (set_current None (set_exits [] (fst a2)), snd a2)) with (s_gen a2) in K.
    rewrite (jumps_fixups _ _ _ _ E2) in K. rewrite FS in K. cbn [set_current set_exits set_gen t_do t_for t_exits fst snd] in K.
    rewrite !map_app, !in_app_iff in *. cbn [map In] in K. tauto. }
  exact (inv_patch _ _ _ IV NX).
Qed.

Lemma ok_callable name np ps body ep : bframe body -> iframe body -> forall x x',
  compile_callable name np ps body ep x = COk x' -> ok x -> ok x'.
Proof.
  intros B F x x' H O. unfold compile_callable in H. inv_ok.
  apply declare_grows in E as (L & _). destruct (existsb _ _); [discriminate|]. inv_ok.
  assert (O1 : ok (fst x, a)).
  { split; [|exact (ok_inv _ O)]. eapply sgrows_swf; [apply (sgrows_syms 0 x a L)|apply O]. }
  pose proof (ok_user_callable _ _ _ _ _ B F _ _ E O1) as [W I]. split; [exact W|exact I].
Qed.

Lemma ok_exit_do pos x x' : compile_exit_do pos x = COk x' -> ok x -> ok x'.
Proof.
  intros H O. split; [eapply sgrows_swf; [eapply exit_do_frame; [exact H|apply O]|apply O]|].
  destruct (ok_emit INop pos x O) as [[_ [ND CD]] _].
  unfold compile_exit_do in H. destruct (t_do (fst x)) as [|top rest] eqn:T; [discriminate|]. inv_ok.
  assert (P : pend (set_do ((top ++ [(s_pc x, pos)]) :: rest) (fst (s_emit INop pos x)), snd (s_emit INop pos x)) =
    (map fst (g_fixups (s_gen x)) ++ map fst top) ++ s_pc x :: map fst (concat rest ++ concat (t_for (fst x)) ++ t_exits (fst x))).
  { unfold pend. cbn [set_do fst snd t_do t_for t_exits s_emit set_gen concat]. rewrite !map_app, <- !app_assoc. reflexivity. }
  assert (Q : pend x = (map fst (g_fixups (s_gen x)) ++ map fst top) ++ map fst (concat rest ++ concat (t_for (fst x)) ++ t_exits (fst x))).
  { unfold pend. rewrite T. cbn [concat]. rewrite !map_app, <- !app_assoc. reflexivity. }
  split; rewrite P.
  - apply NoDup_Add with (a := s_pc x) (l := pend x).
    + rewrite Q. apply Add_app.
    + split; [exact ND|]. intros I. apply (inv_lt _ _ (ok_inv _ O)) in I. lia.
  - intros a I. change (code_at (s_emit INop pos x) a = Some INop).
    apply in_app_iff in I as [I|[<-|I]].
    + apply CD. change (In a (pend x)). rewrite Q, in_app_iff. auto.
    + apply code_emit_at.
    + apply CD. change (In a (pend x)). rewrite Q, in_app_iff. auto.
Qed.

Lemma ok_exit_for pos x x' : compile_exit_for pos x = COk x' -> ok x -> ok x'.
Proof.
  intros H O. split; [eapply sgrows_swf; [eapply exit_for_frame; [exact H|apply O]|apply O]|].
  destruct (ok_emit INop pos x O) as [[_ [ND CD]] _].
  unfold compile_exit_for in H. destruct (t_for (fst x)) as [|top rest] eqn:T; [discriminate|]. inv_ok.
  set (l1 := map fst (g_fixups (s_gen x)) ++ map fst (concat (t_do (fst x)) ++ top)). set (l2 := map fst (concat rest ++ t_exits (fst x))).
  assert (P : pend (set_for ((top ++ [(s_pc x, pos)]) :: rest) (fst (s_emit INop pos x)), snd (s_emit INop pos x)) =
    l1 ++ s_pc x :: l2).
  { unfold pend, l1, l2. cbn [set_for fst snd t_do t_for t_exits s_emit set_gen concat]. rewrite !map_app, <- !app_assoc. reflexivity. }
  assert (Q : pend x = l1 ++ l2).
  { unfold pend, l1, l2. rewrite T. cbn [concat]. rewrite !map_app, <- !app_assoc. reflexivity. }
  split; rewrite P.
  - apply NoDup_Add with (a := s_pc x) (l := pend x).
    + rewrite Q. apply Add_app.
    + split; [exact ND|]. intros I. apply (inv_lt _ _ (ok_inv _ O)) in I. lia.
  - intros a I. change (code_at (s_emit INop pos x) a = Some INop).
    apply in_app_iff in I as [I|[<-|I]].
    + apply CD. change (In a (pend x)). rewrite Q, in_app_iff. auto.
    + apply code_emit_at.
    + apply CD. change (In a (pend x)). rewrite Q, in_app_iff. auto.
Qed.

Lemma ok_exit_callable k e pos x x' : compile_exit_callable k e pos x = COk x' -> ok x -> ok x'.
Proof.
  intros H O. split; [eapply sgrows_swf; [eapply exit_callable_frame; [exact H|apply O]|apply O]|].
  destruct (ok_emit INop pos x O) as [[_ [ND CD]] _].
  unfold compile_exit_callable in H. destruct (match t_current (fst x) with Some k' => _ | None => _ end); [|discriminate]. inv_ok.
  assert (P : pend (set_exits (t_exits (fst x) ++ [(s_pc x, pos)]) (fst (s_emit INop pos x)), snd (s_emit INop pos x)) =
    pend x ++ s_pc x :: []).
  { unfold pend. cbn [set_exits fst snd t_do t_for t_exits s_emit set_gen]. rewrite !map_app, <- !app_assoc. reflexivity. }
  change (t_exits (fst (s_emit INop pos x))) with (t_exits (fst x)).
  split; rewrite P.
  - apply NoDup_Add with (a := s_pc x) (l := pend x ++ []).
    + apply Add_app.
    + rewrite app_nil_r. split; [exact ND|]. intros I. apply (inv_lt _ _ (ok_inv _ O)) in I. lia.
  - intros a I. change (code_at (s_emit INop pos x) a = Some INop).
    apply in_app_iff in I as [I|[<-|[]]].
    + apply CD. exact I.
    + apply code_emit_at.
Qed.

Lemma stmts_iframe l : Forall (fun s => iframe (compile_stmt s)) l -> iframe (compile_stmts l).
Proof.
  induction 1 as [|s l B BS IH]; intros x x' H W I; cbn [compile_stmts] in H.
  - inv_ok. exact I.
  - inv_ok. eapply IH; [exact H| |eapply B; eassumption].
    eapply sgrows_swf; [eapply stmt_frame; eassumption|exact W].
Qed.

Lemma stmts_bframe l : bframe (compile_stmts l).
Proof. apply stmts_frame. apply Forall_forall. intros s _. apply stmt_frame. Qed.

Theorem stmt_iframe s : iframe (compile_stmt s).
Proof.
  induction s using stmt_rect'; intros x x' H0 W IV; assert (H9 := H0); rewrite compile_stmt_eq in H0;
    apply bind_ok in H0 as (y & E & Q); inv_ok.
  all: match goal with |- inv (mark_from ?s ?b ?y) => assert (G : inv y); [|
    unfold mark_from; destruct (_ && _); exact G] end.
  - assert (G : sgrows (s_pc x) x y /\ gen_only x y \/ ok y).
    { assert (O : ok x) by (split; assumption).
      destruct s; try contradiction.
      + left. split; [eapply array_assignment_frame; eassumption|].
        eapply steady_gen; [|exact E]. intros P K. apply array_assignment_st, K.
      + left. split; [eapply assignment_frame; eassumption|]. eapply assignment_gen, E.
      + left. split; [eapply call_stmt_frame; eassumption|].
        eapply steady_gen; [|exact E]. intros P K. apply call_stmt_st, K.
      + unfold compile_data in E. inv_ok. right. split; assumption.
      + unfold compile_declare in E. destruct (t_current _); [discriminate|]. inv_ok.
        apply declare_grows in E0 as (L & _). right. split; [|exact IV]. eapply sgrows_swf; [apply (sgrows_syms 0 x a L)|exact W].
      + left. split; [|eapply steady_gen; [|exact E]; intros P K; apply dim_st, K].
        unfold compile_dim in E. inv_ok. apply dim_register_grows in E0. apply sgrows_gen; [|exact E0].
        apply grows_emit; [apply W|apply le_n].
      + left. split; [eapply dim_array_frame; eassumption|]. eapply steady_gen; [|exact E]. intros P K. apply dim_array_st, K.
      + left. split; [eapply end_frame; eassumption|]. eapply steady_gen; [|exact E]. intros P K. apply end_st, K.
      + right. eapply ok_exit_do; eassumption.
      + right. eapply ok_exit_for; eassumption.
      + right. eapply ok_exit_callable; eassumption.
      + right. eapply ok_exit_callable; eassumption.
      + inv_ok. left. split; [apply emit_fixup_frame; assumption|apply fixup_gen].
      + inv_ok. left. split; [apply emit_fixup_frame; assumption|apply fixup_gen].
      + left. split.
        * assert (FR := stmt_frame _ _ _ H9 W). 
          unfold mark_from in FR. cbn [marks_start andb] in FR. exact FR.
        * unfold compile_label in E. destruct (define_label _ _ _) as [g fresh] eqn:DL.
          destruct fresh; [|discriminate]. inv_ok. unfold define_label in DL. apply pair_inj in DL as [<- _].
          do 3 (split; [reflexivity|]). exact (filled_refl (s_gen x)).
      + inv_ok. left. destruct o; cbn [compile_on_error].
        * split; [apply emit_fixup_frame; assumption|apply fixup_gen].
        * split; [apply sgrows_emit; [assumption|apply le_n]|apply emit_gen].
        * split; [apply sgrows_emit; [assumption|apply le_n]|apply emit_gen].
      + inv_ok. left. split; [apply sgrows_emit; [assumption|apply le_n]|apply emit_gen]. }
    destruct G as [[G1 G2]|G]; [eapply inv_gen; eassumption|apply G].
  - eapply ok_inv, ok_callable; [apply stmts_bframe|apply stmts_iframe, H|exact E|split; assumption].
  - eapply ok_inv, ok_do; [apply stmts_bframe|apply stmts_iframe, H|exact E|split; assumption].
  - eapply ok_inv, ok_for; [apply stmts_bframe|apply stmts_iframe, H|exact E|split; assumption].
  - eapply ok_inv, ok_if; [|exact E|split; assumption]. apply Forall_map. eapply Forall_impl; [|eassumption].
    intros b B. split; [apply stmts_bframe|apply stmts_iframe, B].
  - eapply ok_inv, ok_select; [|exact E|split; assumption]. apply Forall_map. eapply Forall_impl; [|eassumption].
    intros b B. split; [apply stmts_bframe|apply stmts_iframe, B].
  - eapply ok_inv, ok_while; [apply stmts_bframe|apply stmts_iframe, H|exact E|split; assumption].
Qed.

Lemma block_iframe l : iframe (compile_stmts l).
Proof. apply stmts_iframe. apply Forall_forall. intros s _. apply stmt_iframe. Qed.
