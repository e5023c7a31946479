(** Proofs about the typing of calls and their arguments. *)
From Verif Require Import Base Bytecode_Model Mem_Model Vm_Model Ids_Model Ids_Spec Ids_Proofs
  Ast_Model Syms_Model Syms_Spec Syms_Proofs Codegen_Model Codegen_Proofs Exprs_Model Exprs_Proofs Top_Model Eval_Spec Eval_Proofs Args_Spec.

(** * Small facts *)

Lemma accepts_annotated v t : accepts_callable v (Some t) = true <-> annotated v t.
Proof.
  unfold accepts_callable, annotated. destruct (vr_type v) as [t'|]; [|tauto].
  rewrite etype_eqb_eq. split; [intros ->; auto|intros [?|?]; congruence].
Qed.

Lemma numerical_number t : is_numerical t = true <-> number t.
Proof. unfold number. destruct t; cbn; intuition discriminate. Qed.

Lemma argsep_eqb_eq a b : argsep_eqb a b = true <-> a = b.
Proof. unfold argsep_eqb. destruct (argsep_dec a b); intuition discriminate. Qed.

Lemma validate_iff md ss e sep pos : validate_argsep md ss e sep pos = COk tt <-> separated ss e sep.
Proof.
  destruct ss as [x|xs|]; cbn [validate_argsep separated]; [| |tauto].
  - destruct (argsep_eqb sep x) eqn:A; cbn [orb].
    + apply argsep_eqb_eq in A. tauto.
    + destruct (argsep_eqb sep SepEnd) eqn:B; cbn [andb].
      * apply argsep_eqb_eq in B. destruct e; split; intros H; try discriminate; auto.
        destruct H as [<-|[_ H]]; [|discriminate]. rewrite (proj2 (argsep_eqb_eq _ _) eq_refl) in A. discriminate.
      * split; [discriminate|]. intros [<-|[-> _]]; [rewrite (proj2 (argsep_eqb_eq _ _) eq_refl) in A|]; discriminate.
  - destruct (argsep_eqb sep SepEnd) eqn:B.
    + apply argsep_eqb_eq in B. destruct e; split; intros H; try discriminate; auto.
      destruct H as [[_ H]|[H _]]; [discriminate|contradiction].
    + assert (N : sep <> SepEnd) by (intros ->; discriminate B).
      destruct (existsb (argsep_eqb sep) xs) eqn:X; split; intros H; try discriminate; auto.
      * apply existsb_exists in X as (y & Y & E). apply argsep_eqb_eq in E. subst y. auto.
      * destruct H as [[? _]|[_ H]]; [contradiction|].
        assert (existsb (argsep_eqb sep) xs = true) by (apply existsb_exists; exists sep; split; [exact H|apply argsep_eqb_eq; reflexivity]).
        congruence.
Qed.

Lemma nargs_takes s n : nargs_ok s n = true <-> takes n s.
Proof.
  unfold nargs_ok, takes. destruct (sy_repeated s) as [rp|]; [|apply Nat.eqb_eq].
  rewrite Nat.leb_le. destruct (rp_require_one rp); intuition lia.
Qed.

Lemma find_chosen md n syn : find_syntax md n = Some syn <-> chosen md n syn.
Proof.
  unfold find_syntax, chosen. induction (md_syntaxes md) as [|s l IH]; cbn [find].
  - split; [discriminate|]. intros ([|? ?] & ? & H & _); discriminate H.
  - destruct (nargs_ok s n) eqn:A.
    + apply nargs_takes in A. split.
      * intros H. injection H as <-. exists [], l. split; [reflexivity|]. split; [exact A|]. intros s' [].
      * intros ([|s' b] & a & H & K & N); cbn [app] in H; [injection H as <- _; reflexivity|].
        injection H as <- _. destruct (N s); cbn; auto.
    + assert (B : ~ takes n s) by (rewrite <- nargs_takes; congruence). rewrite IH. split.
      * intros (b & a & -> & K & N). exists (s :: b), a. split; [reflexivity|]. split; [exact K|]. intros s' [<-|H]; auto.
      * intros ([|s' b] & a & H & K & N); cbn [app] in H; injection H as <- ->; [contradiction|].
        exists b, a. split; [reflexivity|]. split; [exact K|]. intros s' H. apply N. right. exact H.
Qed.

(** * What compiles is well-typed *)

Section Sound.
Variable ls : lsyms.
Variable T : expr -> etype -> Prop.

(** A compiled expression has its type. *)
Definition sound (e : expr) (c : closure) : Prop :=
  forall r st st' t, c r st = COk (st', t) -> T e t.
Definition sound_arg (a : carg) : Prop := match a with (Some (e, c), _, _) => sound e c | _ => True end.
Definition bare (a : carg) : argspan :=
  match a with (Some (e, _), sep, pos) => (Some e, sep, pos) | (None, sep, pos) => (None, sep, pos) end.

Lemma as_type_sound e c pos r t st st' : sound e c -> as_type c pos r t st = COk st' -> converts_to T t e.
Proof.
  intros HS H. unfold as_type in H. destruct (c r st) as [[st1 t1]| |] eqn:E; try discriminate H. cbn [bind] in H.
  apply HS in E. destruct (etype_eqb t1 t) eqn:Q; [apply etype_eqb_eq in Q; subst; constructor; exact E|].
  destruct (cast_numerical r t1 t pos (fst st1)) eqn:C; [|discriminate H].
  apply (To_number _ _ _ t1); [exact E| |]; unfold number; destruct t1, t; try discriminate C; auto.
Qed.

Lemma arg_as_sound e c pos r t a a' : sound e c -> arg_compile_as c pos r t a = COk a' -> converts_to T t e.
Proof.
  destruct a as [[s st] l]. intros HS H. unfold arg_compile_as in H.
  destruct (as_type c pos r t st) eqn:E; try discriminate H. eapply as_type_sound; eassumption.
Qed.

Lemma arg_any_sound e c r a a' t : sound e c -> arg_compile c r a = COk (a', t) -> T e t.
Proof.
  destruct a as [[s st] l]. intros HS H. unfold arg_compile in H.
  destruct (c r st) as [[st1 t1]| |] eqn:E; try discriminate H. cbn [bind] in H.
  apply COk_inj, pair_inj in H as [_ <-]. eapply HS; eassumption.
Qed.

Lemma lookup_refers md arr d v p q r t : lookup_ref ls md arr d v p q = COk (r, t) -> refers ls arr v.
Proof.
  unfold lookup_ref, refers.
  destruct (get_local_or_global ls v) as [[x [t0 n0|t0]]|[y|y|y|y w]]; destruct arr; try discriminate.
  - intros _. exists x, t0. eauto.
  - intros _. exists x, t0. eauto.
  - destruct d; [destruct (get_callable _ _)|]; discriminate.
  - destruct d; [destruct (get_callable _ _)|]; discriminate.
Qed.

Ltac go H :=
  cbn [bind] in H; repeat match type of H with
  | bind ?x _ = _ => let E := fresh "E" in destruct x eqn:E; try discriminate H; cbn [bind] in H
  | match ?x with (_, _) => _ end = _ => destruct x
  end.

Lemma valid_sep md ss e sep pos : forall x, validate_argsep md ss e sep pos = COk x -> separated ss e sep.
Proof. intros []. apply validate_iff. Qed.

Lemma singular_sound md key syn e args a rest a' :
  singular_arg ls md key syn e args a = COk (rest, a') -> Forall sound_arg args -> args <> [] ->
  exists x, args = x :: rest /\ fixed_fits ls T e syn (bare x).
Proof.
  intros H F N. destruct args as [|[[[[x c]|] sep] pos] args]; [contradiction| |]; inversion F as [|? ? F1 F2]; subst;
    cbn [sound_arg] in F1; destruct syn as [name t ss|name arr def ss|name t ss|name al ss]; cbn [singular_arg] in H.
  - go H. apply COk_inj, pair_inj in H as [<- _]. eexists. split; [reflexivity|]. cbn [bare].
    constructor; [eapply arg_as_sound; eassumption|eapply valid_sep; eassumption].
  - destruct x; try discriminate H. go H. apply COk_inj, pair_inj in H as [<- _]. eexists. split; [reflexivity|]. cbn [bare].
    constructor; [eapply lookup_refers; eassumption|eapply valid_sep; eassumption].
  - go H. apply COk_inj, pair_inj in H as [<- _]. eexists. split; [reflexivity|]. cbn [bare].
    go E0. constructor; [eapply arg_as_sound; eassumption|eapply valid_sep; eassumption].
  - go H. apply COk_inj, pair_inj in H as [<- _]. eexists. split; [reflexivity|]. cbn [bare].
    go E0. econstructor; [eapply arg_any_sound; eassumption|eapply valid_sep; eassumption].
  - discriminate H.
  - discriminate H.
  - go H. apply COk_inj, pair_inj in H as [<- _]. eexists. split; [reflexivity|]. cbn [bare].
    constructor. eapply valid_sep; eassumption.
  - go H. apply COk_inj, pair_inj in H as [<- _]. eexists. split; [reflexivity|]. cbn [bare].
    constructor. eapply valid_sep; eassumption.
Qed.

Lemma singulars_sound md key one syns : forall args a rest a',
  singular_args ls md key one syns args a = COk (rest, a') -> Forall sound_arg args ->
  length syns <= length args ->
  all_fixed ls T one syns (map bare args) (map bare rest) /\ length args = length syns + length rest /\ Forall sound_arg rest.
Proof.
  induction syns as [|syn syns IH]; intros args a rest a' H F L; cbn [singular_args] in H.
  - apply COk_inj, pair_inj in H as [<- _]. split; [constructor|auto].
  - go H. destruct (singular_sound _ _ _ _ _ _ _ _ E F) as (x & -> & X).
    { destruct args; [cbn in L; lia|discriminate]. }
    inversion F as [|? ? F1 F2]; subst. cbn [length] in L. apply IH in H as (A & B & C); [|assumption|lia].
    split; [|cbn [length]; split; [lia|assumption]]. cbn [map]. destruct syns as [|syn' syns].
    + inversion A; subst. constructor. exact X.
    + constructor; assumption.
Qed.

Lemma plain_sound md rp t args : forall a a',
  rp_type rp = RepTyped t -> plain_args md (rp_sep rp) t args a = COk a' -> Forall sound_arg args ->
  Forall (repeated_fits ls T rp) (map bare args).
Proof.
  induction args as [|[[[[x c]|] sep] pos] args IH]; intros a a' R H F; cbn [plain_args map] in *; [constructor| |];
    inversion F as [|? ? F1 F2]; subst; cbn [sound_arg] in F1.
  - go H. constructor; [|eapply IH; eassumption]. cbn [bare].
    eapply Rep_value; [exact R|eapply arg_as_sound; eassumption|eapply valid_sep; eassumption].
  - go H. 
Qed.

Lemma tagged_sound md rp args : forall a a',
  tagged_args ls md rp args a = COk a' -> Forall sound_arg args ->
  Forall (repeated_fits ls T rp) (map bare args).
Proof.
  induction args as [|[[[[x c]|] sep] pos] args IH]; intros a a' H F; cbn [tagged_args map] in *; [constructor| |];
    inversion F as [|? ? F1 F2]; subst; cbn [sound_arg] in F1; go H; (constructor; [|eapply IH; eassumption]); cbn [bare].
  - destruct (rp_type rp) as [|t|] eqn:R.
    + go E1. eapply Rep_any; [exact R|eapply arg_any_sound; eassumption|eapply valid_sep; eassumption].
    + go E1. eapply Rep_value; [exact R|eapply arg_as_sound; eassumption|eapply valid_sep; eassumption].
    + destruct x; try discriminate E1. go E1.
      eapply Rep_reference; [exact R|eapply lookup_refers; eassumption|eapply valid_sep; eassumption].
  - destruct (rp_allow_missing rp) eqn:M; [|discriminate E1].
    apply Rep_none; [exact M|eapply valid_sep; eassumption].
Qed.

Lemma args_sound md key args st r : compile_args ls md key args st = COk r -> Forall sound_arg args ->
  exists syn, chosen md (length args) syn /\ fits ls T syn (map bare args).
Proof.
  intros H F. unfold compile_args in H. destruct (find_syntax md (length args)) as [syn|] eqn:FS; [|discriminate H].
  exists syn. apply find_chosen in FS. split; [exact FS|]. destruct FS as (_ & _ & _ & TK & _).
  unfold takes in TK. go H.
  assert (L : length (sy_singular syn) <= length args) by (destruct (sy_repeated syn); lia).
  destruct (singulars_sound _ _ _ _ _ _ _ _ E0 F L) as (A & B & C).
  destruct (sy_repeated syn) as [rp|] eqn:RS.
  - assert (X : Forall (repeated_fits ls T rp) (map bare l)).
    { destruct TK as [TK1 TK2].
      destruct (Nat.ltb_spec (length args) (if rp_require_one rp then length (sy_singular syn) + 1 else length (sy_singular syn))); [discriminate E1|].
      destruct (rp_type rp) as [|t|] eqn:RT, (rp_allow_missing rp) eqn:RM, (rp_sep rp) eqn:RQ; go E1;
        first [rewrite <- RQ in *; eapply plain_sound; [exact RT|eassumption|exact C] | eapply tagged_sound; [eassumption|exact C]]. }
    eapply Fits_repeated; [exact RS| |exact X].
    destruct l as [|x l]; cbn [map length] in *.
    + rewrite Nat.add_0_r in B. rewrite B, Nat.eqb_refl in A. exact A.
    + destruct (Nat.eqb_spec (length args) (length (sy_singular syn))); [lia|]. exact A.
  - apply Fits_exactly; [exact RS|]. destruct l; [|cbn [length] in B; lia]. cbn [map] in A.
    rewrite Bool.andb_false_r in A. exact A.
Qed.

Lemma subscripts_sound es : forall s pos f st r, integer_exprs (map (fun a => fst (fst a)) es) s pos f st = COk r ->
  Forall sound_arg es -> Forall (subscript T) (map bare es).
Proof.
  induction es as [|[[[[x c]|] sep] p] es IH]; intros s pos f st r H F; cbn [map integer_exprs fst] in *; [constructor| |discriminate H].
  inversion F as [|? ? F1 F2]; subst. go H. constructor; [|eapply IH; eassumption].
  cbn [bare]. constructor. eapply as_type_sound; eassumption.
Qed.
End Sound.

Lemma closures_bare ls args : map bare (map (with_closure ls) args) = args.
Proof.
  rewrite map_map. rewrite <- (map_id args) at 2. apply map_ext. intros [[[e|] sep] pos]; reflexivity.
Qed.

Lemma expr_typed ls e : forall reg st st' t, compile_expr ls e reg st = COk (st', t) -> typed ls e t.
Proof.
  induction e as [b p|b p|z p|x p|v p|o l rr p IHl IHr|o e p IHe|v p args IH] using expr_rect';
    intros reg st st' t H; cbn [compile_expr] in H.
  1-4: unfold compile_literal in H; destruct (emit_value _ _ _ _); try discriminate H; cbn [bind] in H;
    apply COk_inj, pair_inj in H as [_ <-]; constructor.
  - unfold compile_symbol in H.
    destruct (get_local_or_global ls v) as [[q [t0 n0|t0]]|[y|y|y|y w]] eqn:G; try discriminate H.
    + apply COk_inj, pair_inj in H as [_ <-]. eapply Y_variable. exact G.
    + destruct (get_callable _ _) as [md|] eqn:GC; [|discriminate H].
      destruct (md_return md) as [t1|] eqn:R; [|discriminate H].
      destruct (accepts_callable v (Some t1)) eqn:A; [|discriminate H]. destruct (is_argless md) eqn:L; [|discriminate H].
      cbn [negb] in H.
      assert (Q : t1 = t).
      { destruct (md_user md); [apply COk_inj, pair_inj in H as [_ <-]; reflexivity|].
        destruct (get_upcall _ _ _ _) as [[g idx]| |]; try discriminate H. cbn [bind] in H.
        destruct (fst (register_to_parts reg)); [|apply COk_inj, pair_inj in H as [_ <-]; reflexivity].
        destruct (open_scope _ _); try discriminate H. cbn [bind] in H.
        destruct (alloc _ _ _) as [[[? ?] ?]| |]; try discriminate H. cbn [bind] in H.
        apply COk_inj, pair_inj in H as [_ <-]. reflexivity. }
      subst t1. eapply Y_function; try eassumption. apply accepts_annotated. exact A.
  - destruct (compile_expr ls l reg st) as [[st1 tl]| |] eqn:E1; try discriminate H. cbn [bind] in H.
    unfold apply_binary in H.
    destruct (open_scope ls st1) as [sc| |] eqn:E2; try discriminate H. cbn [bind] in H.
    destruct (alloc sc (start_pos rr) st1) as [[[rtemp sc2] st2]| |] eqn:E3; try discriminate H. cbn [bind] in H.
    destruct (compile_expr ls rr rtemp st2) as [[st3 tr]| |] eqn:E4; try discriminate H. cbn [bind] in H.
    match type of H with bind ?q _ = _ => destruct q as [[g4 t4]| |] eqn:E5; try discriminate H end. cbn [bind] in H.
    apply COk_inj, pair_inj in H as [_ <-].
    econstructor; [eapply IHl; exact E1|eapply IHr; exact E4|]. eapply binop_type; exact E5.
  - destruct (compile_expr ls e reg st) as [[st1 tl]| |] eqn:E1; try discriminate H. cbn [bind] in H.
    econstructor; [eapply IHe; exact E1|eapply unop_type; exact H].
  - change (compile_call ls v p (map (with_closure ls) args) reg st = COk (st', t)) in H.
    assert (SA : Forall (sound_arg (typed ls)) (map (with_closure ls) args)).
    { clear H. induction IH as [|[[[e|] sep] q] args X Y IHa]; cbn [map]; constructor; cbn [with_closure sound_arg]; auto. }
    unfold compile_call in H. destruct (get_callable _ _) as [md|] eqn:GC.
    + destruct (md_return md) as [t1|] eqn:R; [|discriminate H].
      destruct (accepts_callable v (Some t1)) eqn:A; [|discriminate H]. destruct (is_argless md) eqn:L; [discriminate H|].
      cbn [negb] in H.
      destruct (open_scope _ _); try discriminate H. cbn [bind] in H.
      destruct (alloc _ _ _) as [[[? ?] ?]| |]; try discriminate H. cbn [bind] in H.
      destruct (compile_args _ _ _ _ _) as [[[? ?] ?]| |] eqn:CA; try discriminate H. cbn [bind] in H.
      match type of H with bind ?q _ = _ => destruct q as [?| |]; try discriminate H end. cbn [bind] in H.
      apply COk_inj, pair_inj in H as [_ <-].
      destruct (args_sound ls (typed ls) _ _ _ _ _ CA SA) as (syn & C1 & C2). rewrite closures_bare in C2. rewrite map_length in C1.
      eapply Y_call; try eassumption. apply accepts_annotated. exact A.
    + destruct (get_local_or_global ls v) as [[q [t0 n0|t0]]|[y|y|y|y w]] eqn:G; try discriminate H.
      unfold array_access in H. destruct (Nat.eqb_spec (length (map (with_closure ls) args)) n0) as [N|N]; [|discriminate H].
      cbn [negb] in H.
      destruct (open_scope _ _); try discriminate H. cbn [bind] in H.
      destruct (integer_exprs _ _ _ _ _) as [[[[f|] ?] ?]| |] eqn:IE; try discriminate H. cbn [bind] in H.
      apply COk_inj, pair_inj in H as [_ <-]. rewrite map_length in N.
      eapply Y_element; [exact GC|rewrite N; exact G| |].
      * intros ->. discriminate IE.
      * pose proof (subscripts_sound (typed ls) _ _ _ _ _ _ IE SA) as X. rewrite closures_bare in X. exact X.
Qed.

(** * What is well-typed compiles *)

(** A compilation that succeeds with [Q] or runs out of something. *)
Definition sat {A} (Q : A -> Prop) (x : cres A) : Prop :=
  match x with COk a => Q a | CErr e => out_of_resources e | CPanic => False end.

Lemma sat_bind {A B} (Q : A -> Prop) (R : B -> Prop) x (f : A -> cres B) : sat Q x -> (forall a, Q a -> sat R (f a)) ->
  sat R (bind x f).
Proof. destruct x; cbn; auto. Qed.
Lemma sat_ok {A} (Q : A -> Prop) a : Q a -> sat Q (COk a).
Proof. auto. Qed.
Lemma sat_mono {A} (Q R : A -> Prop) x : sat Q x -> (forall a, Q a -> R a) -> sat R x.
Proof. destruct x; cbn; auto. Qed.

Lemma resource_out e : resource_error e -> out_of_resources e.
Proof. destruct e; cbn; auto. Qed.

Section Complete.
Variable ls : lsyms.
Hypothesis few : (N.of_nat (id_len (ls_locals ls)) < 256)%N.
Variable T : expr -> etype -> Prop.

Definition complete (e : expr) (c : closure) : Prop :=
  forall t r st, T e t -> sat (fun a => snd a = t) (c r st).
Definition complete_arg (a : carg) : Prop := match a with (Some (e, c), _, _) => complete e c | _ => True end.

Lemma open_sat st : sat (fun _ => True) (open_scope ls st).
Proof. destruct (open_resource ls st few) as [s ->]. exact I. Qed.
Lemma alloc_sat s pos st : sat (fun _ => True) (alloc s pos st).
Proof.
  pose proof (alloc_resource s pos st) as H. destruct (alloc s pos st); cbn; auto. apply resource_out. exact H.
Qed.
Lemma arg_alloc_sat pos a : sat (fun _ => True) (arg_alloc pos a).
Proof.
  destruct a as [[s st] l]. unfold arg_alloc. eapply sat_bind; [apply alloc_sat|]. intros [[r s'] st'] _. exact I.
Qed.

Lemma as_type_sat e c pos r t st : complete e c -> converts_to T t e -> sat (fun _ => True) (as_type c pos r t st).
Proof.
  intros C H. unfold as_type. destruct H as [H|t' H N1 N2].
  - eapply sat_bind; [apply (C t r st H)|]. intros [st' t1] E. cbn [snd] in E. subst t1.
    rewrite (proj2 (etype_eqb_eq t t) eq_refl). exact I.
  - eapply sat_bind; [apply (C t' r st H)|]. intros [st' t1] E. cbn [snd] in E. subst t1.
    unfold number in *. destruct N1 as [-> | ->], N2 as [-> | ->]; exact I.
Qed.

Lemma arg_as_sat e c pos r t a : complete e c -> converts_to T t e -> sat (fun _ => True) (arg_compile_as c pos r t a).
Proof.
  intros C H. destruct a as [[s st] l]. unfold arg_compile_as. eapply sat_bind; [eapply as_type_sat; eassumption|].
  intros st' _. exact I.
Qed.
Lemma arg_any_sat e c r a t : complete e c -> T e t -> sat (fun p => snd p = t) (arg_compile c r a).
Proof.
  intros C H. destruct a as [[s st] l]. unfold arg_compile. eapply sat_bind; [apply (C t r st H)|].
  intros [st' t1] E. exact E.
Qed.

Lemma lookup_sat md arr d v p q : refers ls arr v -> sat (fun _ => True) (lookup_ref ls md arr d v p q).
Proof.
  intros (r & t & H). unfold lookup_ref. destruct arr.
  - destruct H as [n H]. rewrite H. exact I.
  - rewrite H. exact I.
Qed.

Lemma valid_sat md ss e sep pos : separated ss e sep -> sat (fun _ => True) (validate_argsep md ss e sep pos).
Proof. intros H. apply validate_iff with (md := md) (pos := pos) in H. rewrite H. exact I. Qed.

Ltac sats :=
  repeat first
    [ match goal with |- sat _ (COk _) => apply sat_ok end
    | eapply sat_bind;
      [ first [apply arg_alloc_sat | eapply arg_as_sat; eassumption | eapply arg_any_sat; eassumption
              | apply lookup_sat; eassumption | apply valid_sat; eassumption ]
      | let x := fresh "x" in let X := fresh "X" in intros x X; repeat match goal with q : (_ * _)%type |- _ => destruct q end ] ].

Lemma singular_sat md key syn e x rest a : complete_arg x -> fixed_fits ls T e syn (bare x) ->
  sat (fun p => fst p = rest) (singular_arg ls md key syn e (x :: rest) a).
Proof.
  intros C F. destruct x as [[[[x c]|] sep] pos]; cbn [bare complete_arg] in *; inversion F; subst; cbn [singular_arg bind]; sats; try reflexivity.
  - eapply sat_bind with (Q := fun _ => True); [sats; exact I|]. intros [? ?] _. sats. reflexivity.
  - eapply sat_bind with (Q := fun _ => True); [sats; exact I|]. intros [? ?] _. sats. reflexivity.
Qed.

Lemma singulars_sat md key one syns : forall args rest' a,
  Forall complete_arg args -> all_fixed ls T one syns (map bare args) rest' ->
  sat (fun p => map bare (fst p) = rest' /\ Forall complete_arg (fst p)) (singular_args ls md key one syns args a).
Proof.
  induction syns as [|syn syns IH]; intros args rest' a C F; cbn [singular_args].
  - inversion F; subst. split; [reflexivity|exact C].
  - destruct args as [|x args]; [inversion F|]. inversion C as [|? ? C1 C2]; subst. cbn [map] in F.
    inversion F as [|? ? ? X|? syn' syns' ? ? ? X Y]; subst.
    + eapply sat_bind; [apply singular_sat with (rest := args); eassumption|].
      intros [r a'] E. cbn [fst] in E. subst r. cbn [singular_args]. split; [reflexivity|exact C2].
    + eapply sat_bind; [apply singular_sat with (rest := args); eassumption|].
      intros [r a'] E. cbn [fst] in E. subst r. apply IH; assumption.
Qed.

Lemma plain_sat md rp t args : rp_type rp = RepTyped t -> rp_allow_missing rp = false -> forall a,
  Forall complete_arg args -> Forall (repeated_fits ls T rp) (map bare args) ->
  sat (fun _ => True) (plain_args md (rp_sep rp) t args a).
Proof.
  intros R M. induction args as [|[[[[x c]|] sep] pos] args IH]; intros a C F; cbn [plain_args]; [exact I| |];
    inversion C as [|? ? C1 C2]; subst; inversion F as [|? ? F1 F2]; subst; cbn [bare complete_arg] in *;
    inversion F1; subst; try congruence; sats; auto.
  - match goal with H : rp_type rp = RepTyped _ |- _ => rewrite R in H; injection H as <- end.
    sats. auto.
Qed.

Lemma tagged_sat md rp args : forall a,
  Forall complete_arg args -> Forall (repeated_fits ls T rp) (map bare args) ->
  sat (fun _ => True) (tagged_args ls md rp args a).
Proof.
  induction args as [|[[[[x c]|] sep] pos] args IH]; intros a C F; cbn [tagged_args]; [exact I| |];
    inversion C as [|? ? C1 C2]; subst; inversion F as [|? ? F1 F2]; subst; cbn [bare complete_arg] in *;
    inversion F1; subst; sats.
  - match goal with H : rp_type rp = _ |- _ => rewrite H end.
    eapply sat_bind with (Q := fun _ => True); [sats; exact I|]. intros [? ?] _. auto.
  - match goal with H : rp_type rp = _ |- _ => rewrite H end.
    eapply sat_bind with (Q := fun _ => True); [sats; exact I|]. intros [? ?] _. auto.
  - match goal with H : rp_type rp = _ |- _ => rewrite H end.
    eapply sat_bind with (Q := fun _ => True); [sats; exact I|]. intros [? ?] _. auto.
  - match goal with H : rp_allow_missing rp = _ |- _ => rewrite H end. cbn [bind]. auto.
Qed.

Lemma first_sat s pos st (l : list linecol) : sat (fun _ => True) (match scope_first s with
  | Ok r => COk (close s st, r, l) | Err e => CErr (from_syms e pos) end).
Proof.
  unfold scope_first, temp_register. destruct (_ <? _)%N; [|exact I]. destruct (register_local _); exact I.
Qed.

Lemma args_sat md key syn args st : Forall complete_arg args -> chosen md (length args) syn ->
  fits ls T syn (map bare args) -> sat (fun _ => True) (compile_args ls md key args st).
Proof.
  intros C CH F. unfold compile_args. pose proof (proj2 (find_chosen md (length args) syn) CH) as FS. rewrite FS.
  destruct CH as (_ & _ & _ & TK & _). unfold takes in TK.
  eapply sat_bind; [apply open_sat|]. intros s _.
  destruct F as [RS AF|rp rest RS AF RF]; rewrite RS in *.
  - eapply sat_bind; [apply singulars_sat with (rest' := []); [exact C|]|].
    + rewrite Bool.andb_false_r. exact AF.
    + intros [r a'] [E _]. cbn [fst] in E. destruct r; [|discriminate E]. cbn [bind]. destruct a' as [[? ?] ?].
      apply first_sat.
  - assert (LR : length args = length (sy_singular syn) + length rest).
    { rewrite <- (map_length bare args). clear -AF. generalize dependent (map bare args).
      generalize (match rest with [] => negb (rp_require_one rp) | _ => false end).
      intros b l H. induction H; cbn [length] in *; lia. }
    eapply sat_bind; [apply singulars_sat with (rest' := rest); [exact C|]|].
    + destruct rest; cbn [length] in LR.
      * replace (length args) with (length (sy_singular syn)) by lia. rewrite Nat.eqb_refl. exact AF.
      * destruct (Nat.eqb_spec (length args) (length (sy_singular syn))); [lia|exact AF].
    + intros [r a'] [E C']. cbn [fst] in *. subst rest.
      eapply sat_bind with (Q := fun p => fst p = []).
      * destruct TK as [TK1 TK2].
        destruct (Nat.ltb_spec (length args) (if rp_require_one rp then length (sy_singular syn) + 1 else length (sy_singular syn))).
        { destruct (rp_require_one rp); [specialize (TK2 eq_refl)|]; lia. }
        assert (TG : sat (fun p : list carg * argst => fst p = [])
          (let* a := match r with
                     | [] => let* (r0, a) := arg_alloc key a' in COk (arg_emit (ILoadInteger r0 (vararg_make (VMissing SepEnd))) key a)
                     | _ :: _ => COk a' end in
           let* a := tagged_args ls md rp r a in COk ([], a))).
        { eapply sat_bind with (Q := fun _ => True); [destruct r; sats; exact I|]. intros a2 _.
          eapply sat_bind; [apply tagged_sat; assumption|]. intros a3 _. reflexivity. }
        destruct (rp_type rp) as [|t|] eqn:RT, (rp_allow_missing rp) eqn:RM; try exact TG.
        destruct (rp_sep rp) eqn:RQ; try exact TG. rewrite <- RQ.
        eapply sat_bind; [apply plain_sat; assumption|]. intros a3 _. reflexivity.
      * intros [r' a2] E2. cbn [fst] in E2. subst r'. destruct a2 as [[? ?] ?]. apply first_sat.
Qed.

Lemma subscripts_sat es : forall s pos f st, Forall complete_arg es -> Forall (subscript T) (map bare es) ->
  (es <> [] \/ exists r, f = Some r) ->
  sat (fun p => exists r, fst (fst p) = Some r) (integer_exprs (map (fun a => fst (fst a)) es) s pos f st).
Proof.
  induction es as [|[[[[x c]|] sep] p] es IH]; intros s pos f st C F N; cbn [map integer_exprs fst].
  - cbn. destruct N as [N|N]; [contradiction|exact N].
  - inversion C as [|? ? C1 C2]; subst. inversion F as [|? ? F1 F2]; subst. cbn [bare complete_arg] in *. inversion F1; subst.
    eapply sat_bind; [apply alloc_sat|]. intros [[r s'] st'] _.
    eapply sat_bind; [eapply as_type_sat; eassumption|]. intros st2 _. apply IH; auto. right. destruct f; eauto.
  - inversion F as [|? ? F1 F2]; subst. inversion F1.
Qed.
End Complete.

Lemma upcall_sat key t pos g : sat (fun _ => True) (get_upcall key t pos g).
Proof.
  unfold get_upcall. destruct (id_get _ _ _) as [[? ?]|]; [exact I|]. destruct (id_insert _ _ _ _ _) as [[? [? ?]]|]; exact I.
Qed.

Lemma typed_sat ls e : (N.of_nat (id_len (ls_locals ls)) < 256)%N -> complete (typed ls) e (compile_expr ls e).
Proof.
  intros few. induction e as [b p|b p|z p|x p|v p|o l rr p IHl IHr|o e p IHe|v p args IH] using expr_rect';
    intros t reg st H; cbn [compile_expr]; inversion H; subst.
  1-4: match goal with |- sat _ (compile_literal ?d ?t ?p ?r ?s) =>
         pose proof (literal_resource d t p r s) as L; destruct (compile_literal d t p r s) as [[? ?]| |]; cbn; auto; apply resource_out; exact L end.
  - unfold compile_symbol. match goal with K : get_local_or_global ls v = _ |- _ => rewrite K end. reflexivity.
  - unfold compile_symbol.
    repeat match goal with K : get_local_or_global ls v = _ |- _ => rewrite K | K : get_callable _ _ = _ |- _ => rewrite K
    | K : md_return _ = _ |- _ => rewrite K | K : is_argless _ = _ |- _ => rewrite K end.
    match goal with K : annotated _ _ |- _ => rewrite (proj2 (accepts_annotated _ _) K) end. cbn [negb].
    destruct (md_user md); [reflexivity|].
    eapply sat_bind; [apply upcall_sat|]. intros [g idx] _.
    destruct (fst (register_to_parts reg)); [|reflexivity].
    eapply sat_bind; [apply open_sat; exact few|]. intros s2 _.
    eapply sat_bind; [apply alloc_sat|]. intros [[? ?] ?] _. reflexivity.
  - eapply sat_bind; [eapply IHl; eassumption|]. intros [st1 t1] E. cbn [snd] in E. subst t1.
    unfold apply_binary. eapply sat_bind; [apply open_sat; exact few|]. intros s2 _.
    eapply sat_bind; [apply alloc_sat|]. intros [[rtemp s3] st2] _.
    eapply sat_bind; [eapply IHr; eassumption|]. intros [st3 t3] E. cbn [snd] in E. subst t3.
    match goal with K : op2_type _ _ _ _ |- context [_ o p reg ?tl rtemp ?tr (start_pos rr) (fst st3)] =>
      destruct (binop_accepts o p reg tl rtemp tr (start_pos rr) (fst st3) t K) as [g ->] end.
    reflexivity.
  - eapply sat_bind; [eapply IHe; eassumption|]. intros [st1 t1] E. cbn [snd] in E. subst t1.
    match goal with K : op1_type _ _ _ |- _ => inversion K; subst end; unfold apply_unary; cbn [unary_boolean unary_double unary_integer]; try reflexivity.
    eapply sat_bind; [apply open_sat; exact few|]. intros s2 _.
    eapply sat_bind; [apply alloc_sat|]. intros [[temp s3] st2] _.
    pose proof (value_resource temp (CInt 1) p (fst st2)) as VR.
    destruct (emit_value _ _ _ _); cbn [bind]; [reflexivity|apply resource_out; exact VR|contradiction].
  - change (sat (fun a => snd a = t) (compile_call ls v p (map (with_closure ls) args) reg st)).
    assert (CA : Forall (complete_arg (typed ls)) (map (with_closure ls) args)).
    { clear -IH. induction IH as [|[[[e|] sep] q] args X Y IHa]; cbn [map]; constructor; cbn [with_closure complete_arg]; auto. }
    unfold compile_call.
    repeat match goal with K : get_callable _ _ = _ |- _ => rewrite K
    | K : md_return _ = _ |- _ => rewrite K | K : is_argless _ = _ |- _ => rewrite K end.
    match goal with K : annotated _ _ |- _ => rewrite (proj2 (accepts_annotated _ _) K) end. cbn [negb].
    eapply sat_bind; [apply open_sat; exact few|]. intros s2 _.
    eapply sat_bind; [apply alloc_sat|]. intros [[ret s3] st2] _.
    eapply sat_bind; [eapply args_sat with (T := typed ls); [exact few|exact CA|rewrite map_length; eassumption|rewrite closures_bare; assumption]|].
    intros [[st3 r] lcs] _.
    eapply sat_bind with (Q := fun _ => True).
    { destruct (md_user md); [exact I|]. eapply sat_bind; [apply upcall_sat|]. intros [g idx] _. exact I. }
    intros g _. reflexivity.
  - change (sat (fun a => snd a = t) (compile_call ls v p (map (with_closure ls) args) reg st)).
    assert (CA : Forall (complete_arg (typed ls)) (map (with_closure ls) args)).
    { clear -IH. induction IH as [|[[[e|] sep] q] args X Y IHa]; cbn [map]; constructor; cbn [with_closure complete_arg]; auto. }
    unfold compile_call.
    repeat match goal with K : get_callable _ _ = _ |- _ => rewrite K | K : get_local_or_global _ _ = _ |- _ => rewrite K end.
    unfold array_access. rewrite map_length, Nat.eqb_refl. cbn [negb].
    eapply sat_bind; [apply open_sat; exact few|]. intros s2 _.
    eapply sat_bind; [eapply subscripts_sat with (T := typed ls); [exact CA|rewrite closures_bare; assumption|]|].
    + left. destruct args; [contradiction|discriminate].
    + intros [[f s3] st3] [q E]. cbn [fst] in E. subst f. reflexivity.
Qed.

(** ** One type only *)

Lemma typed_has_type ls e : forall t, typed ls e t -> has_type ls e t.
Proof.
  induction e as [b p|b p|z p|x p|v p|o l rr p IHl IHr|o e p IHe|v p args IH] using expr_rect';
    intros t H; inversion H; subst; try (constructor; fail).
  - constructor. unfold name_type. match goal with K : get_local_or_global ls v = _ |- _ => rewrite K end. reflexivity.
  - constructor. unfold name_type. match goal with K : get_local_or_global ls v = _ |- _ => rewrite K end. eauto.
  - econstructor; eauto.
  - econstructor; eauto.
  - constructor. unfold applied_type. match goal with K : get_callable _ _ = _ |- _ => rewrite K end. assumption.
  - constructor. unfold applied_type. match goal with K : get_callable _ _ = _ |- _ => rewrite K end. eauto.
Qed.

(** * Types depend on the lookups only *)

Section Ext.
Variables l1 l2 : lsyms.
Hypothesis look : forall v, get_local_or_global l1 v = get_local_or_global l2 v.
Hypothesis calls : forall k, get_callable (ls_global l1) k = get_callable (ls_global l2) k.

Lemma refers_ext a v : refers l1 a v -> refers l2 a v.
Proof. intros (r & t & H). exists r, t. rewrite <- look. exact H. Qed.

Variables T1 T2 : expr -> etype -> Prop.
Definition arg_ext (a : argspan) : Prop := arg_all (fun e => forall t, T1 e t -> T2 e t) a.

Lemma converts_ext t e : (forall t, T1 e t -> T2 e t) -> converts_to T1 t e -> converts_to T2 t e.
Proof. intros X [H|t' H N1 N2]; [constructor; auto|eapply To_number; eauto]. Qed.

Lemma fixed_ext b syn a : arg_ext a -> fixed_fits l1 T1 b syn a -> fixed_fits l2 T2 b syn a.
Proof.
  intros X H. inversion H; subst; cbn [arg_ext arg_all] in X; econstructor; eauto using converts_ext, refers_ext.
Qed.
Lemma all_fixed_ext b syns : forall args rest, Forall arg_ext args -> all_fixed l1 T1 b syns args rest ->
  all_fixed l2 T2 b syns args rest.
Proof.
  induction syns as [|syn syns IH]; intros args rest X H; inversion H; subst; inversion X; subst;
    constructor; eauto using fixed_ext.
Qed.
Lemma all_fixed_rest b syns args rest : all_fixed l1 T1 b syns args rest -> Forall arg_ext args -> Forall arg_ext rest.
Proof. induction 1; intros X; auto; inversion X; subst; auto. Qed.
Lemma repeated_ext rp a : arg_ext a -> repeated_fits l1 T1 rp a -> repeated_fits l2 T2 rp a.
Proof.
  intros X H. inversion H; subst; cbn [arg_ext arg_all] in X.
  - apply Rep_none; assumption.
  - eapply Rep_any; eauto.
  - eapply Rep_value; eauto using converts_ext.
  - eapply Rep_reference; eauto using refers_ext.
Qed.
Lemma fits_ext syn args : Forall arg_ext args -> fits l1 T1 syn args -> fits l2 T2 syn args.
Proof.
  intros X [E H|rp rest E H R].
  - apply Fits_exactly; [exact E|]. eapply all_fixed_ext; eassumption.
  - eapply Fits_repeated; [exact E|eapply all_fixed_ext; eassumption|].
    pose proof (all_fixed_rest _ _ _ _ H X) as Y. rewrite Forall_forall in *. intros a A. apply repeated_ext; auto.
Qed.
Lemma subscript_ext a : arg_ext a -> subscript T1 a -> subscript T2 a.
Proof. intros X H. inversion H; subst. cbn [arg_ext arg_all] in X. constructor. eauto using converts_ext. Qed.
End Ext.

Lemma typed_ext l1 l2 e : (forall v, get_local_or_global l1 v = get_local_or_global l2 v) ->
  (forall k, get_callable (ls_global l1) k = get_callable (ls_global l2) k) ->
  forall t, typed l1 e t -> typed l2 e t.
Proof.
  intros L C. induction e as [b p|b p|z p|x p|v p|o l rr p IHl IHr|o e p IHe|v p args IH] using expr_rect';
    intros t H; inversion H; subst; try (constructor; fail).
  - eapply Y_variable. rewrite <- L. eassumption.
  - eapply Y_function; rewrite <- ?L, <- ?C; eassumption.
  - econstructor; eauto.
  - econstructor; eauto.
  - eapply Y_call; rewrite <- ?C; try eassumption. eapply fits_ext; [exact L| |eassumption]. exact IH.
  - eapply Y_element; rewrite <- ?L, <- ?C; try eassumption.
    rewrite Forall_forall in *. intros a A. eapply subscript_ext with (T1 := typed l1); [|auto]. apply IH. exact A.
Qed.

Lemma fits_typed_ext l1 l2 syn args : (forall v, get_local_or_global l1 v = get_local_or_global l2 v) ->
  (forall k, get_callable (ls_global l1) k = get_callable (ls_global l2) k) ->
  fits l1 (typed l1) syn args -> fits l2 (typed l2) syn args.
Proof.
  intros L C. apply fits_ext; [exact L|]. apply Forall_forall. intros [[[e|] sep] pos] _; cbn; [|exact I].
  apply typed_ext; assumption.
Qed.

(** * Commands *)

Lemma knows_tables locals globals l : knows locals globals l ->
  table_of locals (ls_locals l) /\ table_of globals (gs_vars (ls_global l)) /\ length locals <= 192 /\ length globals <= 64.
Proof. intros (l0 & D & -> & ->). apply defined_tables. exact D. Qed.

Lemma knows_lookup locals globals l v : knows locals globals l -> get_local_or_global l v = resolve locals globals v.
Proof. intros K. destruct (knows_tables _ _ _ K) as (A & B & C & D). apply lookup_resolve; assumption. Qed.

Lemma knows_few locals globals l : knows locals globals l -> (N.of_nat (id_len (ls_locals l)) < 256)%N.
Proof. intros K. destruct (knows_tables _ _ _ K) as (A & _ & C & _). rewrite (table_len _ _ A). lia. Qed.

Lemma knows_same locals globals l l' : knows locals globals l -> ls_locals l' = ls_locals l ->
  gs_vars (ls_global l') = gs_vars (ls_global l) -> knows locals globals l'.
Proof. intros (l0 & D & A & B) E F. exists l0. split; [exact D|]. split; congruence. Qed.

Lemma define_new_sat v pos locals globals g l : knows locals globals l -> find_def locals (vr_name v) = None ->
  sat (fun s => knows (locals ++ [(vr_name v, PScalar (annotated_or_integer v))]) globals (snd s) /\ ls_global (snd s) = ls_global l)
    (define_new_arg v pos (g, l)).
Proof.
  intros K F. unfold define_new_arg. cbn [fst snd]. fold (annotated_or_integer v).
  destruct (knows_tables _ _ _ K) as (TL & TG & LL & LG).
  destruct (put_local_new locals l (vr_name v) (PScalar (annotated_or_integer v)) TL F) as (l' & E & T' & G'); [lia|].
  rewrite E. unfold register_local, max_global, max_register in *.
  destruct (N.leb_spec (N.of_nat (length locals) + 64) 255) as [Q|Q]; [|exact I]. cbn [sat snd]. split; [|exact G'].
  destruct K as (l0 & D & A & B).
  destruct (defined_tables _ _ _ D) as (TL0 & _ & _ & _).
  destruct (put_local_new locals l0 (vr_name v) (PScalar (annotated_or_integer v)) TL0 F) as (l0' & E0 & T0' & G0'); [lia|].
  exists l0'. split; [|split].
  - eapply defined_local; [exact D|]. rewrite E0. unfold register_local, max_global, max_register.
    destruct (N.leb_spec (N.of_nat (length locals) + 64) 255); [reflexivity|lia].
  - unfold put_local in E, E0. rewrite A in E. destruct (put_var _ _ _ _ _) as [[t q]|]; [|discriminate E].
    injection E as <- _. injection E0 as <- _. reflexivity.
  - rewrite G', G0'. exact B.
Qed.

Lemma define_ref_sat e globals locals g l sep pos : knows locals globals l ->
  sat (fun s => knows (introduce (ls_global l) globals locals [(e, sep, pos)]) globals (snd s) /\ ls_global (snd s) = ls_global l)
    (define_ref e (g, l)).
Proof.
  intros K. assert (Z : sat (fun s => knows locals globals (snd s) /\ ls_global (snd s) = ls_global l) (COk (g, l))).
  { cbn. auto. }
  destruct e as [[b p|b p|z p|x p|v p|o a b p|o a p|v p args]|]; cbn [define_ref introduce]; try exact Z.
  cbn [snd]. rewrite (knows_lookup _ _ _ v K). unfold resolve, means_something.
  destruct (find_def locals (vr_name v)) as [[i q]|] eqn:FL.
  - destruct (suffix_ok v q); exact Z.
  - destruct (find_def globals (vr_name v)) as [[i q]|] eqn:FG.
    + destruct (suffix_ok v q); exact Z.
    + destruct (get_callable _ _); [exact Z|]. apply define_new_sat; assumption.
Qed.

Lemma introduce_app g globals a : forall locals b,
  introduce g globals locals (a ++ b) = introduce g globals (introduce g globals locals a) b.
Proof.
  induction a as [|[[[e|] sep] pos] a IH]; intros locals b; cbn [app introduce]; auto. destruct e; auto.
Qed.

Lemma introduce_cons g globals x a locals :
  introduce g globals locals (x :: a) = introduce g globals (introduce g globals locals [x]) a.
Proof. apply (introduce_app g globals [x] locals a). Qed.

Lemma define_singular_sat globals syns : forall args locals g l, knows locals globals l -> length syns <= length args ->
  sat (fun p => fst p = skipn (length syns) args /\
         knows (introduce (ls_global l) globals locals (fixed_outputs syns args)) globals (snd (snd p)) /\
         ls_global (snd (snd p)) = ls_global l)
    (define_singular syns args (g, l)).
Proof.
  induction syns as [|syn syns IH]; intros args locals g l K L; cbn [define_singular].
  - cbn. auto.
  - destruct args as [|[[e sep] pos] args]; [cbn in L; lia|]. cbn [length] in L.
    destruct syn as [name t ss|name arr def ss|name t ss|name al ss]; cbn [fixed_outputs length skipn tl].
    + apply IH; [exact K|lia].
    + destruct def.
      * eapply sat_bind; [apply define_ref_sat with (sep := sep) (pos := pos); exact K|].
        intros [g1 l1] [K1 G1]. cbn [snd] in *. rewrite introduce_cons.
        eapply sat_mono; [apply IH; [exact K1|lia]|]. intros [r [g2 l2]] (A & B & C). cbn [fst snd] in *.
        rewrite G1 in B. split; [exact A|]. split; [exact B|congruence].
      * cbn [bind]. apply IH; [exact K|lia].
    + apply IH; [exact K|lia].
    + apply IH; [exact K|lia].
Qed.

Lemma define_repeated_sat globals args : forall locals g l, knows locals globals l ->
  sat (fun s => knows (introduce (ls_global l) globals locals args) globals (snd s) /\ ls_global (snd s) = ls_global l)
    (define_repeated args (g, l)).
Proof.
  induction args as [|[[e sep] pos] args IH]; intros locals g l K; cbn [define_repeated].
  - cbn. auto.
  - eapply sat_bind; [apply define_ref_sat with (sep := sep) (pos := pos); exact K|].
    intros [g1 l1] [K1 G1]. cbn [snd] in *. rewrite introduce_cons.
    eapply sat_mono; [apply IH; exact K1|]. intros [g2 l2] (B & C). cbn [fst snd] in *.
    rewrite G1 in B. split; [exact B|congruence].
Qed.

Lemma define_args_sat md pos args locals globals g l syn : knows locals globals l -> chosen md (length args) syn ->
  sat (fun s => knows (introduce (ls_global l) globals locals (outputs syn args)) globals (snd s) /\ ls_global (snd s) = ls_global l)
    (define_new_args md pos args (g, l)).
Proof.
  intros K CH. unfold define_new_args. rewrite (proj2 (find_chosen _ _ _) CH).
  destruct CH as (_ & _ & _ & TK & _). unfold takes in TK.
  eapply sat_bind; [apply define_singular_sat; [exact K|destruct (sy_repeated syn); lia]|].
  intros [r [g1 l1]] (A & B & C). cbn [fst snd] in *. unfold outputs. rewrite introduce_app.
  destruct (sy_repeated syn) as [[name [|t|] ss one miss]|]; cbn [rp_type]; try (cbn; split; assumption).
  subst r. eapply sat_mono; [apply define_repeated_sat; exact B|]. intros [g2 l2] [D E]. cbn [snd] in *.
  rewrite C in D. split; [exact D|congruence].
Qed.

Lemma sat_Ok {A} (Q : A -> Prop) x a : sat Q x -> x = COk a -> Q a.
Proof. intros H ->. exact H. Qed.

Lemma sound_closures ls args : Forall (sound_arg (typed ls)) (map (with_closure ls) args).
Proof.
  apply Forall_forall. intros a A. apply in_map_iff in A as ([[[e|] sep] pos] & <- & _); cbn [with_closure sound_arg]; [|exact I].
  intros r st st' t H. eapply expr_typed; eassumption.
Qed.
Lemma complete_closures ls args : (N.of_nat (id_len (ls_locals ls)) < 256)%N ->
  Forall (complete_arg (typed ls)) (map (with_closure ls) args).
Proof.
  intros F. apply Forall_forall. intros a A. apply in_map_iff in A as ([[[e|] sep] pos] & <- & _); cbn [with_closure complete_arg]; [|exact I].
  apply typed_sat. exact F.
Qed.

Lemma call_stmt_sound v vpos args x x' md locals globals : knows locals globals (snd x) ->
  get_callable (ls_global (snd x)) (symkey (vr_name v)) = Some md ->
  compile_call_stmt v vpos args x = COk x' ->
  md_return md = None /\
  exists syn, chosen md (length args) syn /\
    knows (introduce (ls_global (snd x)) globals locals (outputs syn args)) globals (snd x') /\
    ls_global (snd x') = ls_global (snd x) /\ fits (snd x') (typed (snd x')) syn args.
Proof.
  intros K GC H. unfold compile_call_stmt in H. rewrite GC in H. destruct (md_return md); [discriminate H|]. split; [reflexivity|].
  destruct (define_new_args md vpos args (s_gen x, snd x)) as [[g l]| |] eqn:D; try discriminate H. cbn [bind] in H.
  destruct (compile_args _ _ _ _ _) as [[[st r] lcs]| |] eqn:CA; try discriminate H. cbn [bind] in H.
  destruct (args_sound l (typed l) _ _ _ _ _ CA (sound_closures l args)) as (syn & C1 & C2).
  rewrite map_length in C1. rewrite closures_bare in C2. exists syn. split; [exact C1|].
  pose proof (sat_Ok _ _ _ (define_args_sat md vpos args locals globals (s_gen x) (snd x) syn K C1) D) as [A B]. cbn [snd] in A, B.
  match type of H with bind ?q _ = _ => destruct q as [g2| |]; try discriminate H end. cbn [bind] in H.
  apply COk_inj in H. subst x'. cbn [snd unfreeze thaw].
  split; [eapply knows_same; [exact A|reflexivity|reflexivity]|]. split; [exact B|].
  eapply fits_typed_ext; [| |exact C2]; intros ?; reflexivity.
Qed.

Lemma call_stmt_sat v vpos args x md locals globals syn l' : knows locals globals (snd x) ->
  get_callable (ls_global (snd x)) (symkey (vr_name v)) = Some md -> md_return md = None ->
  chosen md (length args) syn ->
  knows (introduce (ls_global (snd x)) globals locals (outputs syn args)) globals l' ->
  ls_global l' = ls_global (snd x) -> fits l' (typed l') syn args ->
  sat (fun _ => True) (compile_call_stmt v vpos args x).
Proof.
  intros K GC R CH K' G' F. unfold compile_call_stmt. rewrite GC, R.
  eapply sat_bind; [eapply define_args_sat; eassumption|]. intros [g l] [A B]. cbn [snd] in *.
  assert (F2 : fits l (typed l) syn args).
  { eapply fits_typed_ext; [| |exact F].
    - intros w. rewrite (knows_lookup _ _ _ w K'), (knows_lookup _ _ _ w A). reflexivity.
    - intros k. rewrite G', B. reflexivity. }
  eapply sat_bind; [eapply args_sat with (T := typed l); [eapply knows_few; exact A|apply complete_closures; eapply knows_few; exact A| |]|].
  - rewrite map_length. exact CH.
  - rewrite closures_bare. exact F2.
  - intros [[st first] lcs] _. eapply sat_bind with (Q := fun _ => True).
    { destruct (md_user md); [exact I|]. eapply sat_bind; [apply upcall_sat|]. intros [g2 idx] _. exact I. }
    intros g2 _. exact I.
Qed.
