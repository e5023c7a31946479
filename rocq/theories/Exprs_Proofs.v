(** Proofs about the compilation of expressions: the peeling loop and what it keeps. *)
From Verif Require Import Base Bytecode_Model Mem_Model Vm_Model Ids_Model Ids_Spec Ids_Proofs
  Ast_Model Syms_Model Syms_Proofs Codegen_Model Codegen_Proofs Exprs_Model.

(** * Induction on expressions *)

Definition arg_all (P : expr -> Prop) (a : argspan) : Prop :=
  match a with (Some e, _, _) => P e | (None, _, _) => True end.

Lemma expr_rect' (P : expr -> Prop)
  (HB : forall b p, P (EBoolean b p)) (HD : forall b p, P (EDouble b p))
  (HI : forall z p, P (EInteger z p)) (HT : forall s p, P (EText s p))
  (HS : forall v p, P (ESymbol v p))
  (H2 : forall o l r p, P l -> P r -> P (EBinary o l r p))
  (H1 : forall o e p, P e -> P (EUnary o e p))
  (HC : forall v p args, Forall (arg_all P) args -> P (ECall v p args)) : forall e, P e.
Proof.
  fix IH 1. intros [b p|b p|z p|s p|v p|o l r p|o e p|v p args].
  - apply HB.
  - apply HD.
  - apply HI.
  - apply HT.
  - apply HS.
  - apply H2; apply IH.
  - apply H1; apply IH.
  - apply HC. induction args as [|[[[e|] s] q] args IHargs]; constructor; cbn [arg_all]; auto.
Qed.

(** * The loop of the Rust code is the recursion of the model *)

Lemma bind_assoc {A B C} (x : cres A) (f : A -> cres B) (g : B -> cres C) :
  bind (bind x f) g = bind x (fun a => bind (f a) g).
Proof. destruct x; reflexivity. Qed.

Lemma bind_ext {A B} (x : cres A) (f g : A -> cres B) : (forall a, f a = g a) -> bind x f = bind x g.
Proof. destruct x; cbn; auto. Qed.

Definition is_op (e : expr) : bool :=
  match e with EBinary _ _ _ _ | EUnary _ _ _ => true | _ => false end.

Lemma peel_not_op e : forall acc, is_op (fst (peel_ops e acc)) = false.
Proof. induction e; intros acc; cbn [peel_ops fst is_op]; auto. Qed.

Lemma peel_compile ls e : forall acc reg st,
  bind (compile_expr ls e reg st) (fun p => compile_pending ls acc reg (snd p) (fst p)) =
  bind (compile_expr ls (fst (peel_ops e acc)) reg st)
    (fun p => compile_pending ls (snd (peel_ops e acc)) reg (snd p) (fst p)).
Proof.
  induction e as [| | | | |o l IHl r IHr p|o e IHe p|]; intros acc reg st; try reflexivity.
  - cbn [peel_ops]. rewrite <- IHl. cbn [compile_expr compile_pending]. rewrite bind_assoc.
    apply bind_ext. intros [st' t]. cbn [fst snd]. apply bind_ext. intros [? ?]. reflexivity.
  - cbn [peel_ops]. rewrite <- IHe. cbn [compile_expr compile_pending]. rewrite bind_assoc.
    apply bind_ext. intros [st' t]. cbn [fst snd]. apply bind_ext. intros [? ?]. reflexivity.
Qed.

Lemma compile_expr_peeled ls e reg st :
  compile_expr ls e reg st =
  (let '(inner, ops) := peel_ops e [] in
   let* (st, t) := compile_expr ls inner reg st in compile_pending ls ops reg t st) /\
  is_op (fst (peel_ops e [])) = false.
Proof.
  split; [|apply peel_not_op]. pose proof (peel_compile ls e [] reg st) as H.
  destruct (peel_ops e []) as [inner ops]. cbn [fst snd] in H.
  transitivity (bind (compile_expr ls e reg st) (fun p => compile_pending ls [] reg (snd p) (fst p))).
  - destruct (compile_expr ls e reg st) as [[? ?]| |]; reflexivity.
  - rewrite H. apply bind_ext. intros [? ?]. reflexivity.
Qed.

(** * What compiling an expression keeps *)

(** The generator continues and the temporaries in use are the same as before. *)
Definition egrows (b : nat) (st st' : est) : Prop :=
  grows b (fst st) (fst st') /\ ts_next (snd st') = ts_next (snd st).

Definition cframe (c : closure) : Prop :=
  forall reg st st' t, c reg st = COk (st', t) -> gwf (fst st) ->
    egrows (next_pc (fst st)) st st' /\ next_pc (fst st) < next_pc (fst st').

Definition scope_in (s : tscope) (t : tstate) : Prop := (sc_base s + sc_ntemps s = ts_next t)%N.

Section Frame.
Variable ls : lsyms.

Lemma open_ok st s : open_scope ls st = COk s ->
  scope_in s (snd st) /\ sc_base s = ts_next (snd st) /\ sc_nlocals s = N.of_nat (id_len (ls_locals ls)).
Proof.
  unfold open_scope, temp_scope. destruct (_ <? u8_ids)%N; [|discriminate].
  intros H. inv_ok. unfold scope_in. cbn [sc_base sc_nlocals sc_ntemps]. repeat split; lia.
Qed.

Lemma alloc_ok s pos st r s' st' : alloc s pos st = COk (r, s', st') ->
  fst st' = fst st /\ sc_base s' = sc_base s /\ sc_nlocals s' = sc_nlocals s /\
  sc_ntemps s' = (sc_ntemps s + 1)%N /\
  ts_next (snd st') = (ts_next (snd st) + 1)%N /\
  r = (64 + sc_nlocals s + ts_next (snd st))%N /\ (r < 256)%N.
Proof.
  unfold alloc, scope_alloc, temp_register, register_local, max_global, max_register, u8_ids.
  destruct (_ <? 256)%N; [|discriminate]. destruct (_ <? 256)%N; [|discriminate].
  destruct (N.leb_spec (sc_nlocals s + ts_next (snd st) + 64) 255); [|discriminate].
  intros H0. inv_ok. cbn [fst snd sc_base sc_nlocals sc_ntemps ts_next]. repeat split; try reflexivity; lia.
Qed.

Lemma alloc_in s pos st r s' st' : alloc s pos st = COk (r, s', st') -> scope_in s (snd st) ->
  scope_in s' (snd st').
Proof. intros H. apply alloc_ok in H. unfold scope_in. lia. Qed.

Lemma close_next s st : scope_in s (snd st) -> ts_next (snd (close s st)) = sc_base s.
Proof. unfold scope_in, close, scope_drop. cbn. lia. Qed.

Lemma egrows_refl b st : egrows b st st.
Proof. split; [apply grows_refl|reflexivity]. Qed.

Lemma egrows_trans b s1 s2 s3 : egrows b s1 s2 -> egrows b s2 s3 -> egrows b s1 s3.
Proof. intros [A B] [C D]. split; [eapply grows_trans; eassumption|congruence]. Qed.

Lemma egrows_gwf b st st' : egrows b st st' -> gwf (fst st) -> gwf (fst st').
Proof. intros [A _]. eapply grows_gwf; eassumption. Qed.

Lemma egrows_pc b st st' : egrows b st st' -> next_pc (fst st) <= next_pc (fst st').
Proof. intros [[A] _]. exact A. Qed.

Lemma egrows_emit b i pos st : gwf (fst st) -> b <= next_pc (fst st) -> egrows b st (e_emit i pos st).
Proof. intros. split; [apply grows_emit; assumption|reflexivity]. Qed.

Lemma literal_frame d t pos : cframe (compile_literal d t pos).
Proof.
  intros reg st st' t' H W. unfold compile_literal in H. inv_ok.
  destruct (grows_value (next_pc (fst st)) _ _ _ _ _ E W) as [G P]; [lia|].
  split; [split; [exact G|reflexivity]|]. cbn. lia.
Qed.

Lemma cast_frame b r t t' pos g g' : cast_numerical r t t' pos g = Some g' -> gwf g -> b <= next_pc g ->
  grows b g g'.
Proof.
  intros H W L. destruct t, t'; cbn [cast_numerical] in H; try discriminate;
    injection H as <-; first [apply grows_refl | apply grows_emit; assumption].
Qed.

Lemma as_type_frame c epos reg t st st' : cframe c -> as_type c epos reg t st = COk st' ->
  gwf (fst st) -> egrows (next_pc (fst st)) st st' /\ next_pc (fst st) < next_pc (fst st').
Proof.
  intros C H W. unfold as_type in H. inv_ok.
  destruct (C _ _ _ _ E W) as [G L]. destruct (etype_eqb e0 t); [inv_ok; auto|].
  destruct (cast_numerical reg e0 t epos (fst e)) eqn:Q; [|discriminate]. inv_ok.
  assert (X : grows (next_pc (fst st)) (fst e) c0).
  { eapply cast_frame; [exact Q| |lia]. eapply egrows_gwf; eassumption. }
  split; [|cbn; apply gr_len in X; lia].
  eapply egrows_trans; [exact G|]. split; [exact X|reflexivity].
Qed.

Lemma unary_frame b o pos reg t st st' t' : apply_unary ls o pos reg t st = COk (st', t') ->
  gwf (fst st) -> b <= next_pc (fst st) -> egrows b st st' /\ next_pc (fst st) < next_pc (fst st').
Proof.
  intros H W L. unfold apply_unary in H.
  assert (X : forall i, egrows b st (e_emit i pos st) /\ next_pc (fst st) < next_pc (fst (e_emit i pos st))).
  { intros i. split; [apply egrows_emit; assumption|]. unfold e_emit. cbn [fst]. rewrite emit_pc. lia. }
  destruct t, o; cbn [unary_boolean unary_double] in H; try discriminate; inv_ok; try apply X.
  match goal with E1 : open_scope _ _ = _ |- _ => apply open_ok in E1 as (S1 & S2 & _) end.
  match goal with E1 : alloc _ _ _ = _ |- _ =>
    pose proof (alloc_in _ _ _ _ _ _ E1 S1) as S3; apply alloc_ok in E1 as (A1 & A2 & _) end.
  destruct e as [g0 t9]. cbn [fst snd] in *. subst g0.
  match goal with E1 : emit_value _ _ _ _ = _ |- _ =>
    destruct (grows_value b _ _ _ _ _ E1 W L) as [G P] end.
  split; [split|].
  - cbn [close fst]. eapply grows_trans; [exact G|]. apply grows_emit; [eapply grows_gwf; eassumption|lia].
  - rewrite close_next by exact S3. congruence.
  - cbn [close fst]. rewrite emit_pc. lia.
Qed.

Lemma binary_op_frame b o pos reg t rtemp rt rpos g g' t' :
  (if is_relational o then relational_op else binary_op) o pos reg t rtemp rt rpos g = COk (g', t') ->
  gwf g -> b <= next_pc g -> grows b g g' /\ next_pc g < next_pc g'.
Proof.
  intros H W L.
  assert (X : forall i q, grows b g (emit i q g) /\ next_pc g < next_pc (emit i q g)).
  { intros i q. split; [apply grows_emit; assumption|]. rewrite emit_pc. lia. }
  assert (Y : forall i j q r, grows b g (emit i q (emit j r g)) /\ next_pc g < next_pc (emit i q (emit j r g))).
  { intros i j q r. destruct (X j r) as [X1 X2]. split; [|rewrite emit_pc; lia].
    eapply grows_trans; [exact X1|]. apply grows_emit; [eapply grows_gwf; eassumption|lia]. }
  destruct (is_relational o).
  - unfold relational_op, resolve_numeric in H.
    destruct t, rt; destruct (make_boolean o), (make_text o), (make_double o); try discriminate; inv_ok;
      first [apply X | apply Y].
  - unfold binary_op, resolve_numeric in H.
    destruct t, rt; destruct (make_boolean o), (make_text o), (make_double o); try discriminate; inv_ok;
      first [apply X | apply Y].
Qed.

Lemma binary_frame o pos rhs rpos reg t st st' t' b :
  cframe rhs -> apply_binary ls o pos rhs rpos reg t st = COk (st', t') -> gwf (fst st) ->
  b <= next_pc (fst st) -> egrows b st st' /\ next_pc (fst st) < next_pc (fst st').
Proof.
  intros C H W L. unfold apply_binary in H. inv_ok.
  apply open_ok in E as (S1 & S2 & _). pose proof (alloc_in _ _ _ _ _ _ E0 S1) as S3.
  apply alloc_ok in E0 as (A1 & A2 & _ & _ & A3 & _).
  destruct e as [g0 t9]. cbn [fst snd] in *. subst g0.
  destruct (C _ _ _ _ E1) as [[G P] Q]; [exact W|]. cbn [fst snd] in *.
  assert (W' : gwf (fst e0)) by (eapply grows_gwf; eassumption).
  destruct (binary_op_frame b _ _ _ _ _ _ _ _ _ _ E2 W') as [G2 P2]; [lia|].
  split; [split|].
  - cbn [close fst]. eapply grows_trans; [eapply grows_weaken; [exact G|lia]|exact G2].
  - rewrite close_next; [congruence|]. unfold scope_in in *. cbn [snd]. congruence.
  - cbn [close fst]. lia.
Qed.

Lemma integer_exprs_frame es : forall s pos first st o s' st' b,
  Forall (fun e => match e with Some (_, c) => cframe c | None => True end) es ->
  integer_exprs es s pos first st = COk (o, s', st') -> gwf (fst st) -> b <= next_pc (fst st) ->
  scope_in s (snd st) ->
  grows b (fst st) (fst st') /\ scope_in s' (snd st') /\ sc_base s' = sc_base s /\
  sc_nlocals s' = sc_nlocals s.
Proof.
  induction es as [|[[e c]|] es IH]; intros s pos first st o s' st' b F H W L I; cbn [integer_exprs] in H.
  - inv_ok. split; [apply grows_refl|auto].
  - apply Forall_cons_iff in F as [F1 F]. inv_ok.
    pose proof (alloc_in _ _ _ _ _ _ E I) as I1. apply alloc_ok in E as (A1 & A2 & A3 & _).
    destruct e0 as [g0 t9]. cbn [fst snd] in *. subst g0.
    destruct (as_type_frame _ _ _ _ _ _ F1 E0 W) as [[G P] Q]. cbn [fst snd] in *.
    eapply IH with (b := b) in H; [|exact F| |lia|].
    + destruct H as (H1 & H2 & H3 & H4). split; [|repeat split; congruence].
      eapply grows_trans; [eapply grows_weaken; [exact G|lia]|exact H1].
    + eapply grows_gwf; eassumption.
    + unfold scope_in in *. congruence.
  - discriminate.
Qed.

Definition carg_frame (a : carg) : Prop :=
  match a with (Some (_, c), _, _) => cframe c | (None, _, _) => True end.

Lemma array_access_frame reg pos arr t n args st st' t' b :
  Forall carg_frame args -> array_access ls reg pos arr t n args st = COk (st', t') ->
  gwf (fst st) -> b <= next_pc (fst st) ->
  egrows b st st' /\ next_pc (fst st) < next_pc (fst st').
Proof.
  intros F H W L. unfold array_access in H. destruct (negb _); [discriminate|]. inv_ok.
  destruct o; [|discriminate]. inv_ok.
  apply open_ok in E as (S1 & S2 & _).
  assert (F' : Forall (fun e => match e with Some (_, c) => cframe c | None => True end)
     (map (fun a : carg => fst (fst a)) args)).
  { clear -F. induction F as [|[[[[? ?]|] ?] ?] ? X]; cbn; constructor; auto. }
  destruct (integer_exprs_frame _ _ _ _ _ _ _ _ b F' E0 W L S1) as (G & I & Q & _).
  pose proof (gr_len _ _ _ G) as P.
  split; [split|].
  - cbn [close fst]. eapply grows_trans; [exact G|]. apply grows_emit; [eapply grows_gwf; eassumption|lia].
  - rewrite close_next by exact I. congruence.
  - cbn [close e_emit fst]. rewrite emit_pc. lia.
Qed.

(** ** Arguments *)

Definition agrows (b : nat) (a a' : argst) : Prop :=
  let '(s, st, _) := a in
  let '(s', st', _) := a' in
  grows b (fst st) (fst st') /\ sc_base s' = sc_base s /\ sc_nlocals s' = sc_nlocals s /\
  scope_in s' (snd st').

Definition aok (b : nat) (a : argst) : Prop :=
  let '(s, st, _) := a in gwf (fst st) /\ b <= next_pc (fst st) /\ scope_in s (snd st).

Lemma agrows_refl b a : aok b a -> agrows b a a.
Proof. destruct a as [[s st] l]. cbn. intros (_ & _ & I). split; [apply grows_refl|auto]. Qed.

Lemma agrows_trans b a1 a2 a3 : agrows b a1 a2 -> agrows b a2 a3 -> agrows b a1 a3.
Proof.
  destruct a1 as [[s1 st1] l1], a2 as [[s2 st2] l2], a3 as [[s3 st3] l3]. cbn.
  intros (G1 & A1 & B1 & C1) (G2 & A2 & B2 & C2). split; [eapply grows_trans; eassumption|].
  repeat split; congruence.
Qed.

Lemma agrows_ok b a a' : aok b a -> agrows b a a' -> aok b a'.
Proof.
  destruct a as [[s st] l], a' as [[s' st'] l']. cbn [aok agrows].
  intros (W & L & I) (G & _ & _ & I'). pose proof (gr_len _ _ _ G).
  split; [eapply grows_gwf; eassumption|split; [lia|assumption]].
Qed.

Lemma arg_alloc_frame b pos a r a' : arg_alloc pos a = COk (r, a') -> aok b a -> agrows b a a'.
Proof.
  destruct a as [[s st] l]. unfold arg_alloc. intros H (W & L & I). inv_ok.
  pose proof (alloc_in _ _ _ _ _ _ E I) as J. apply alloc_ok in E as (A1 & A2 & A3 & _).
  cbn. rewrite A1. split; [apply grows_refl|auto].
Qed.

Lemma arg_emit_frame b i pos a : aok b a -> agrows b a (arg_emit i pos a).
Proof.
  destruct a as [[s st] l]. intros (W & L & I). cbn. split; [apply grows_emit; assumption|auto].
Qed.

Lemma arg_compile_frame b c r a a' t : cframe c -> arg_compile c r a = COk (a', t) -> aok b a ->
  agrows b a a'.
Proof.
  destruct a as [[s st] l]. unfold arg_compile. intros C H (W & L & I). inv_ok.
  destruct (C _ _ _ _ E W) as [[G P] _]. cbn. split; [eapply grows_weaken; eassumption|].
  unfold scope_in in *. repeat split; congruence.
Qed.

Lemma arg_compile_as_frame b c epos r t a a' : cframe c -> arg_compile_as c epos r t a = COk a' ->
  aok b a -> agrows b a a'.
Proof.
  destruct a as [[s st] l]. unfold arg_compile_as. intros C H (W & L & I). inv_ok.
  destruct (as_type_frame _ _ _ _ _ _ C E W) as [[G P] _]. cbn. split; [eapply grows_weaken; eassumption|].
  unfold scope_in in *. repeat split; congruence.
Qed.

(** Chains the steps of an argument's compilation. *)
Ltac chain :=
  repeat match goal with
  | K : aok ?b ?a, E : arg_alloc _ ?a = COk (_, ?a') |- _ =>
      let G := fresh "G" in pose proof (arg_alloc_frame b _ _ _ _ E K) as G;
      let K' := fresh "K" in pose proof (agrows_ok _ _ _ K G) as K'; clear E
  | K : aok ?b ?a, C : cframe ?c, E : arg_compile ?c _ ?a = COk (?a', _) |- _ =>
      let G := fresh "G" in pose proof (arg_compile_frame b _ _ _ _ _ C E K) as G;
      let K' := fresh "K" in pose proof (agrows_ok _ _ _ K G) as K'; clear E
  | K : aok ?b ?a, C : cframe ?c, E : arg_compile_as ?c _ _ _ ?a = COk ?a' |- _ =>
      let G := fresh "G" in pose proof (arg_compile_as_frame b _ _ _ _ _ _ C E K) as G;
      let K' := fresh "K" in pose proof (agrows_ok _ _ _ K G) as K'; clear E
  end.
Ltac chain_end :=
  repeat first
    [ assumption
    | apply agrows_refl; assumption
    | apply arg_emit_frame; assumption
    | match goal with G : agrows _ ?x ?y |- agrows _ ?x ?z => eapply agrows_trans; [exact G|] end ].

Lemma singular_frame md key_pos syn end_ok args a args' a' b :
  Forall carg_frame args -> singular_arg ls md key_pos syn end_ok args a = COk (args', a') ->
  aok b a -> agrows b a a' /\ Forall carg_frame args'.
Proof.
  intros F H K. destruct syn as [n t ss|n ra df ss|n t ss|n am ss]; cbn [singular_arg] in H.
  - destruct args as [|[[[[e c]|] sep] sp] args]; try discriminate.
    apply Forall_cons_iff in F as [F1 F]. cbn [carg_frame] in F1. inv_ok. chain.
    split; [chain_end|assumption].
  - destruct args as [|[[[[e c]|] sep] sp] args]; try discriminate.
    apply Forall_cons_iff in F as [F1 F]. destruct e; try discriminate. inv_ok. chain.
    split; [|assumption]. chain_end.
  - destruct args as [|[[[[e c]|] sep] sp] args].
    + inv_ok. cbn [arg_pos_of] in *. chain. split; [chain_end|constructor].
    + apply Forall_cons_iff in F as [F1 F]. cbn [carg_frame arg_pos_of] in *. inv_ok. chain.
      split; [chain_end|assumption].
    + apply Forall_cons_iff in F as [F1 F]. cbn [carg_frame arg_pos_of] in *. inv_ok. chain.
      split; [chain_end|assumption].
  - destruct args as [|[[[[e c]|] sep] sp] args].
    + destruct am; cbn [bind] in H; [|discriminate]. inv_ok. cbn [arg_pos_of] in *. chain.
      split; [chain_end|constructor].
    + apply Forall_cons_iff in F as [F1 F]. cbn [carg_frame arg_pos_of bind] in *. inv_ok. chain.
      split; [chain_end|assumption].
    + apply Forall_cons_iff in F as [F1 F]. cbn [carg_frame arg_pos_of bind] in *. inv_ok. chain.
      split; [chain_end|assumption].
Qed.

Lemma singulars_frame md key_pos one syns : forall args a args' a' b,
  Forall carg_frame args -> singular_args ls md key_pos one syns args a = COk (args', a') ->
  aok b a -> agrows b a a' /\ Forall carg_frame args'.
Proof.
  induction syns as [|syn syns IH]; intros args a args' a' b F H K; cbn [singular_args] in H.
  - inv_ok. split; [apply agrows_refl; assumption|assumption].
  - inv_ok. destruct (singular_frame _ _ _ _ _ _ _ _ b F E K) as [G F'].
    destruct (IH _ _ _ _ b F' H) as [G2 F2]; [eapply agrows_ok; eassumption|].
    split; [eapply agrows_trans; eassumption|assumption].
Qed.

Lemma plain_frame md ss t args : forall a a' b,
  Forall carg_frame args -> plain_args md ss t args a = COk a' -> aok b a -> agrows b a a'.
Proof.
  induction args as [|[[[[e c]|] sep] sp] args IH]; intros a a' b F H K; cbn [plain_args] in H.
  - inv_ok. apply agrows_refl; assumption.
  - apply Forall_cons_iff in F as [F1 F]. cbn [carg_frame] in F1. inv_ok. chain.
    eapply agrows_trans; [eassumption|]. eapply agrows_trans; [eassumption|]. eapply IH; eassumption.
  - inv_ok.
Qed.

Lemma tagged_frame md rp args : forall a a' b,
  Forall carg_frame args -> tagged_args ls md rp args a = COk a' -> aok b a -> agrows b a a'.
Proof.
  induction args as [|[[[[e c]|] sep] sp] args IH]; intros a a' b F H K; cbn [tagged_args] in H.
  - inv_ok. apply agrows_refl; assumption.
  - apply Forall_cons_iff in F as [F1 F]. cbn [carg_frame] in F1. inv_ok.
    destruct (rp_type rp).
    + inv_ok. chain.
      match goal with H : tagged_args _ _ _ _ (arg_emit ?i ?p ?a0) = _, K : aok ?b ?a0 |- _ =>
        pose proof (arg_emit_frame b i p a0 K) as G'; pose proof (agrows_ok _ _ _ K G') as K';
        apply (IH _ _ b F) in H; [|exact K'] end.
      chain_end.
    + inv_ok. chain.
      match goal with H : tagged_args _ _ _ _ (arg_emit ?i ?p ?a0) = _, K : aok ?b ?a0 |- _ =>
        pose proof (arg_emit_frame b i p a0 K) as G'; pose proof (agrows_ok _ _ _ K G') as K';
        apply (IH _ _ b F) in H; [|exact K'] end.
      chain_end.
    + destruct e; try discriminate. inv_ok. chain.
      match goal with H : tagged_args _ _ _ _ (arg_emit ?i ?p (arg_emit ?j ?q ?a0)) = _, K : aok ?b ?a0 |- _ =>
        pose proof (arg_emit_frame b j q a0 K) as G'; pose proof (agrows_ok _ _ _ K G') as K';
        pose proof (arg_emit_frame b i p _ K') as G''; pose proof (agrows_ok _ _ _ K' G'') as K'';
        apply (IH _ _ b F) in H; [|exact K''] end.
      chain_end.
  - apply Forall_cons_iff in F as [F1 F]. inv_ok. destruct (rp_allow_missing rp); [|discriminate]. inv_ok. chain.
      match goal with H : tagged_args _ _ _ _ (arg_emit ?i ?p ?a0) = _, K : aok ?b ?a0 |- _ =>
        pose proof (arg_emit_frame b i p a0 K) as G'; pose proof (agrows_ok _ _ _ K G') as K';
        apply (IH _ _ b F) in H; [|exact K'] end.
      chain_end.
Qed.

Lemma compile_args_frame md key_pos args st st' r l b :
  Forall carg_frame args -> compile_args ls md key_pos args st = COk (st', r, l) ->
  gwf (fst st) -> b <= next_pc (fst st) -> egrows b st st'.
Proof.
  intros F H W L. unfold compile_args in H. destruct (find_syntax md (length args)) as [syn|]; [|discriminate].
  inv_ok. apply open_ok in E as (S1 & S2 & _).
  assert (K : aok b (a, st, [])) by (cbn; auto).
  destruct (singulars_frame _ _ _ _ _ _ _ _ b F E0 K) as [G F'].
  pose proof (agrows_ok _ _ _ K G) as K'.
  assert (X : agrows b a0 a1 /\ aok b a1).
  { destruct (sy_repeated syn) as [rp|]; [|inv_ok; split; [apply agrows_refl|]; assumption].
    destruct (_ <? _); [discriminate|].
    assert (P : forall ty, (let* a2 := plain_args md (rp_sep rp) ty l0 a0 in COk ([], a2)) = COk (l1, a1) ->
              agrows b a0 a1 /\ aok b a1).
    { clear E1 H. intros t Q. inv_ok. apply (plain_frame _ _ _ _ _ _ b F') in E; [|exact K'].
      split; [assumption|eapply agrows_ok; eassumption]. }
    assert (T : (let* a :=
            match l0 with
            | [] => let* (r, a) := arg_alloc key_pos a0 in
                COk (arg_emit (ILoadInteger r (vararg_make (VMissing SepEnd))) key_pos a)
            | _ => COk a0
            end in let* a := tagged_args ls md rp l0 a in COk ([], a)) = COk (l1, a1) ->
              agrows b a0 a1 /\ aok b a1).
    { clear E1 H. intros Q. inv_ok. destruct l0 as [|x l0].
      - inv_ok. cbn [tagged_args] in *. inv_ok. chain.
        match goal with K : aok b ?a0 |- _ /\ aok b (arg_emit ?i ?p ?a0) =>
          pose proof (arg_emit_frame b i p a0 K) as G'; pose proof (agrows_ok _ _ _ K G') as K'' end.
        split; [|assumption]. chain_end.
      - inv_ok. match goal with E2 : tagged_args _ _ _ _ _ = _ |- _ =>
          apply (tagged_frame _ _ _ _ _ b F') in E2; [|exact K'] end.
        split; [assumption|eapply agrows_ok; eassumption]. }
    destruct (rp_type rp), (rp_allow_missing rp), (rp_sep rp); first [apply T; assumption|eapply P; eassumption]. }
  destruct X as [X KX]. destruct l1; [|discriminate]. destruct a1 as [[s3 st3] l3].
  destruct (scope_first s3); [|discriminate]. inv_ok.
  pose proof (agrows_trans _ _ _ _ G X) as Y. cbn in Y. destruct Y as (Y1 & Y2 & Y3 & Y4).
  split; [exact Y1|]. rewrite close_next by exact Y4. congruence.
Qed.

Lemma add_fixup_pc a f g : next_pc (add_fixup a f g) = next_pc g.
Proof. reflexivity. Qed.

Lemma compile_call_frame v pos args reg st st' t b :
  Forall carg_frame args -> compile_call ls v pos args reg st = COk (st', t) ->
  gwf (fst st) -> b <= next_pc (fst st) -> egrows b st st' /\ next_pc (fst st) < next_pc (fst st').
Proof.
  intros F H W L. unfold compile_call in H.
  destruct (get_callable (ls_global ls) (symkey (vr_name v))) as [md|].
  - destruct (md_return md) as [rt|]; [|discriminate]. destruct (negb _); [discriminate|].
    destruct (is_argless md); [discriminate|]. inv_ok.
    apply open_ok in E as (S1 & S2 & _). pose proof (alloc_in _ _ _ _ _ _ E0 S1) as S3.
    apply alloc_ok in E0 as (A1 & A2 & _). destruct e as [g0 t9]. cbn [fst snd] in *. subst g0.
    pose proof (compile_args_frame _ _ _ _ _ _ _ b F E1 W L) as [G Q]. cbn [fst snd] in *.
    assert (W' : gwf (fst e0)) by (eapply grows_gwf; eassumption).
    assert (L' := gr_len _ _ _ G).
    assert (X : grows b (fst e0) a0 /\ next_pc (fst e0) < next_pc a0).
    { destruct (md_user md).
      - inv_ok. split; [|rewrite add_fixup_pc, set_args_pc, emit_pc; lia].
        eapply grows_trans; [apply (grows_emit b INop pos); [exact W'|lia]|].
        eapply grows_trans; [apply (grows_set_args b (next_pc (fst e0)) l); lia|]. apply grows_fixup.
        rewrite set_args_pc, emit_pc. lia.
      - inv_ok. destruct (grows_upcall b _ _ _ _ _ _ E W') as (U & C & _).
        rewrite set_args_pc, emit_pc, (next_pc_eq _ _ C). split; [|lia].
        assert (W2 : gwf c) by (eapply grows_gwf; eassumption).
        eapply grows_trans; [exact U|]. eapply grows_trans; [apply grows_emit; [exact W2|]|].
        + rewrite (next_pc_eq _ _ C). lia.
        + apply grows_set_args. lia. }
    destruct X as [X P].
    assert (Y : forall g2, (if negb (reg =? n)%N then emit (IMove reg n) pos a0 else a0) = g2 ->
       grows b a0 g2 /\ next_pc a0 <= next_pc g2).
    { intros g2 <-. destruct (negb (reg =? n)%N).
      - split; [apply grows_emit; [eapply grows_gwf; eassumption|lia]|]. rewrite emit_pc. lia.
      - split; [apply grows_refl|lia]. }
    destruct (Y _ eq_refl) as [Y1 Y2]. split; [split|].
    + cbn [close fst]. eapply grows_trans; [exact G|]. eapply grows_trans; eassumption.
    + rewrite close_next; [congruence|]. unfold scope_in in *. cbn [snd]. congruence.
    + cbn [close fst]. lia.
  - destruct (get_local_or_global ls v) as [[r [t0 n|t0]]|[s|s|s|s w]]; try discriminate.
    eapply array_access_frame; eassumption.
Qed.

Lemma compile_symbol_frame v pos : cframe (compile_symbol ls v pos).
Proof.
  intros reg st st' t H W. unfold compile_symbol in H.
  assert (X : forall i, egrows (next_pc (fst st)) st (e_emit i pos st) /\
     next_pc (fst st) < next_pc (fst (e_emit i pos st))).
  { intros i. split; [apply egrows_emit; [assumption|lia]|]. unfold e_emit. cbn [fst]. rewrite emit_pc. lia. }
  destruct (get_local_or_global ls v) as [[r [t0 n|t0]]|[s|s|s|s w]]; try discriminate.
  - inv_ok. apply X.
  - destruct (get_callable (ls_global ls) (symkey (vr_name v))) as [md|]; [|discriminate].
    destruct (md_return md) as [rt|]; [|discriminate]. destruct (negb _); [discriminate|].
    destruct (negb (is_argless md)); [discriminate|]. destruct (md_user md).
    + inv_ok. destruct (X INop) as [[X1 _] X2]. unfold e_emit in *. cbn [fst snd] in *. split; [split|].
      * cbn [fst]. eapply grows_trans; [exact X1|]. apply grows_fixup. rewrite emit_pc. lia.
      * reflexivity.
      * exact X2.
    + inv_ok. destruct (grows_upcall (next_pc (fst st)) _ _ _ _ _ _ E W) as (U & C & _).
      assert (W2 : gwf c) by (eapply grows_gwf; eassumption).
      pose proof (next_pc_eq _ _ C) as P.
      destruct (fst (register_to_parts reg)).
      * inv_ok. apply open_ok in E0 as (S1 & S2 & _). pose proof (alloc_in _ _ _ _ _ _ E1 S1) as S3.
        apply alloc_ok in E1 as (A1 & A2 & _). destruct e as [g0 t1]. cbn [fst snd] in *. subst g0.
        cbn [close e_emit fst snd]. rewrite !emit_pc. split; [split|lia].
        -- unfold close, e_emit. cbn [fst snd]. eapply grows_trans; [exact U|].
           eapply grows_trans; [apply (grows_emit _ (upcall_instr md n n0) pos); [exact W2|lia]|].
           apply grows_emit; [|rewrite emit_pc; lia]. eapply grows_gwf; [|exact W2].
           apply (grows_emit 0); [exact W2|lia].
        -- change (ts_next (snd (close t0 (c, t1))) = ts_next (snd st)). rewrite close_next by exact S3. congruence.
      * inv_ok. cbn [fst snd]. rewrite emit_pc. split; [split|lia].
        -- cbn [fst]. eapply grows_trans; [exact U|]. apply grows_emit; [exact W2|lia].
        -- reflexivity.
Qed.

Lemma compile_expr_frame e : cframe (compile_expr ls e).
Proof.
  induction e as [b p|b p|z p|s p|v p|o l r p IHl IHr|o e p IHe|v p args IH] using expr_rect';
    intros reg st st' t H W.
  - eapply literal_frame; eassumption.
  - eapply literal_frame; eassumption.
  - eapply literal_frame; eassumption.
  - eapply literal_frame; eassumption.
  - eapply compile_symbol_frame; eassumption.
  - cbn [compile_expr] in H. inv_ok. destruct (IHl _ _ _ _ E W) as [G L].
    pose proof (egrows_pc _ _ _ G).
    destruct (binary_frame _ _ _ _ _ _ _ _ _ (next_pc (fst st)) IHr H) as [G2 L2];
      [eapply egrows_gwf; eassumption|lia|].
    split; [eapply egrows_trans; eassumption|lia].
  - cbn [compile_expr] in H. inv_ok. destruct (IHe _ _ _ _ E W) as [G L].
    pose proof (egrows_pc _ _ _ G).
    destruct (unary_frame (next_pc (fst st)) _ _ _ _ _ _ _ H) as [G2 L2];
      [eapply egrows_gwf; eassumption|lia|].
    split; [eapply egrows_trans; eassumption|lia].
  - cbn [compile_expr] in H.
    eapply compile_call_frame; [|exact H|exact W|lia].
    clear H W. induction IH as [|[[[e|] s] q] args IH1 IH2]; constructor; auto.
Qed.

Lemma with_closure_frame args : Forall carg_frame (map (with_closure ls) args).
Proof.
  induction args as [|[[[e|] s] q] args IH]; constructor; auto; cbn; auto using compile_expr_frame.
Qed.

Lemma as_type_expr_frame e reg t st st' : compile_expr_as_type ls e reg t st = COk st' ->
  gwf (fst st) -> egrows (next_pc (fst st)) st st' /\ next_pc (fst st) < next_pc (fst st').
Proof. apply as_type_frame, compile_expr_frame. Qed.

End Frame.
