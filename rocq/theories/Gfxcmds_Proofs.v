(** The graphics commands and functions do what they should. *)
From Coq Require Import String.
From Verif Require Import Base Bytecode_Model Mem_Model Num_Model Vm_Model Ast_Model Syms_Model Strings_Model Call_Spec Cmds_Model Cmds_Spec Cmds_Proofs
  Lib_Model Lib_Spec Gfxcmds_Model Gfxcmds_Spec.
Local Open Scope string_scope.
Local Open Scope list_scope.
Local Open Scope nat_scope.

Lemma to_string_decimal z d : decimal z d -> to_string z = d.
Proof.
  intros H. destruct (to_string_numeral z) as (n & N0 & ->). destruct H as [[L D]|(L & m & D & ->)].
  - rewrite (proj2 (Z.ltb_ge z 0) L). exact (numeral_unique _ _ _ N0 D).
  - rewrite (proj2 (Z.ltb_lt z 0) L), (numeral_unique _ _ _ N0 D). reflexivity.
Qed.
Lemma decimal_exists z : exists d, decimal z d.
Proof.
  destruct (to_string_numeral z) as (n & N0 & _). destruct (Z.lt_ge_cases z 0) as [L|L].
  - exists (u "-" ++ n). right. split; [exact L|]. exists n. split; [exact N0|reflexivity].
  - exists n. left. split; assumption.
Qed.

Section Scope.
Variable arg : nat -> N.
Variable pos : list linecol.
Lemma coordinate_ok k z : as_i32 (arg k) = z -> coordinate z -> parse_coordinate arg pos k = Some (Ok z).
Proof. intros A C. unfold parse_coordinate. rewrite A. unfold coordinate in C. replace ((-32768 <=? z) && (z <=? 32767))%Z with true by lia. reflexivity. Qed.
Lemma coordinate_bad k z d : as_i32 (arg k) = z -> ~ coordinate z -> decimal z d -> k < length pos ->
  exists q, parse_coordinate arg pos k = Some (Err (Some q, u "Coordinate " ++ d ++ u " out of range")).
Proof.
  intros A C D L. unfold parse_coordinate. rewrite A. unfold coordinate in C. replace ((-32768 <=? z) && (z <=? 32767))%Z with false by lia.
  rewrite (to_string_decimal _ _ D). unfold syntax_error. destruct (nth_error pos k) as [q|] eqn:Q; [|apply nth_error_None in Q; lia]. exists q. reflexivity.
Qed.
Definition at_args (k : nat) (zs : list Z) : Prop := forall i z, nth_error zs i = Some z -> as_i32 (arg (k + i)) = z.
Lemma at_args_cons k z zs : at_args k (z :: zs) -> as_i32 (arg k) = z /\ at_args (S k) zs.
Proof.
  intros H. split; [rewrite <- (Nat.add_0_r k); apply H; reflexivity|]. intros i y E. replace (S k + i) with (k + S i) by lia. apply H. exact E.
Qed.
Lemma parse_good zs : forall k, at_args k zs -> Forall coordinate zs -> parse_from arg pos k (length zs) = Some (Ok zs).
Proof.
  induction zs as [|z zs IH]; intros k A F; [reflexivity|]. apply at_args_cons in A. destruct A as [A B]. inversion F; subst.
  cbn [length parse_from]. rewrite (coordinate_ok k _ eq_refl), IH by assumption. reflexivity.
Qed.
Lemma parse_bad zs msg : forall k, at_args k zs -> first_bad zs msg -> k + length zs <= length pos ->
  exists q, parse_from arg pos k (length zs) = Some (Err (Some q, msg)).
Proof.
  intros k A (before & z & after & d & -> & F & C & D & ->) L. revert k A L. induction F as [|y before Y F IH]; intros k A L; cbn [app length] in *;
    apply at_args_cons in A; destruct A as [A B]; cbn [parse_from].
  - destruct (coordinate_bad k z d A C D) as [q ->]; [lia|]. exists q. reflexivity.
  - rewrite (coordinate_ok k y A Y). destruct (IH (S k) B) as [q ->]; [lia|]. exists q. reflexivity.
Qed.
End Scope.

Lemma flat_length l : length (flat l) = 2 * length l.
Proof. induction l as [|p l IH]; [reflexivity|]. unfold flat in *. cbn [flat_map app length]. rewrite IH. lia. Qed.
Lemma pairs_flat l : pairs (flat l) = Some l.
Proof. induction l as [|[x y] l IH]; [reflexivity|]. unfold flat in *. cbn [flat_map app fst snd pairs]. rewrite IH. reflexivity. Qed.

Section Provides.
Context {W : Type}.
Variable perform : gfx_op -> W -> W * option ustr.
Variable size_pixels : W -> res ustr (N * N).
Variable peek_pixel : Z * Z -> W -> res ustr (option N).
Notation provided_ := (gfx_provided perform size_pixels peek_pixel).

Lemma shape_provided k zs op : shape k zs op -> exists p f, find (fun p => ustr_eqb (pv_name p) k) provided_ = Some p /\ md_return (pv_md p) = None /\
  f zs = Some op /\ forall arg text_of pos w, length pos = length zs -> pv_exec p arg text_of pos w = shape_exec perform arg pos (length zs) f w.
Proof.
  intros H. destruct H as [[x y]|[x y]|[x y] [x' y']|[x y] [x' y']|[x y] [x' y']|[x y] [x' y'] [x'' y'']|[x y] [x' y'] [x'' y'']|l L|l L];
    do 2 eexists; (split; [reflexivity|]); (split; [reflexivity|]);
    try (split; [|intros arg text_of pos w E; reflexivity]; reflexivity).
  - split; [|intros arg text_of pos w E; cbn [pv_exec gfx_command]; unfold poly_exec].
    2:{ rewrite E, flat_length. replace (2 * length l =? 1) with false by (symmetry; apply Nat.eqb_neq; lia).
        replace (256 <? 2 * length l) with false by (symmetry; apply Nat.ltb_ge; lia). rewrite Nat.odd_mul. cbn [Nat.odd Nat.even negb andb]. reflexivity. }
    cbv beta. rewrite pairs_flat. reflexivity.
  - split; [|intros arg text_of pos w E; cbn [pv_exec gfx_command]; unfold poly_exec].
    2:{ rewrite E, flat_length. replace (2 * length l =? 1) with false by (symmetry; apply Nat.eqb_neq; lia).
        replace (256 <? 2 * length l) with false by (symmetry; apply Nat.ltb_ge; lia). rewrite Nat.odd_mul. cbn [Nat.odd Nat.even negb andb]. reflexivity. }
    cbv beta. rewrite pairs_flat. reflexivity.
Qed.
Lemma given_ints arg text_of zs : given_from arg text_of 0 (ints zs) -> at_args arg 0 zs.
Proof. intros GF i z E. exact (GF i _ (map_nth_error _ _ _ E)). Qed.
Lemma only_ints zs : only_values (ints zs).
Proof. intros k t I0. apply in_map_iff in I0. destruct I0 as (z & E & _). discriminate E. Qed.
Lemma ask_performs op w r w' : performs perform op w r w' -> exists r', ask perform op w = (w', r') /\ said r' = r.
Proof. intros (e & P & ->). unfold ask. rewrite P. destruct e; eexists; split; reflexivity. Qed.
Lemma performs_value op w r w' v : performs perform op w r w' -> r = Ok v -> v = None.
Proof. intros (e & _ & ->) E. destruct e; [discriminate E|injection E as <-; reflexivity]. Qed.
Lemma declares_none md v : md_return md = None -> v = None -> declares md v.
Proof. intros R ->. unfold declares. rewrite R. exact Logic.I. Qed.
Lemma declares_integer md z v : md_return md = Some TInteger -> in_i32 z -> @Ok ustr _ (Some (CInt z)) = Ok v -> declares md v.
Proof. intros R L E. injection E as <-. unfold declares. rewrite R. split; [reflexivity|intros y Z0; injection Z0 as <-; exact L]. Qed.
Lemma circle_provided k f : circle k f -> exists p, find (fun p => ustr_eqb (pv_name p) k) provided_ = Some p /\ md_return (pv_md p) = None /\
  forall arg text_of pos w, pv_exec p arg text_of pos w = circle_exec perform arg pos f w.
Proof. intros [|]; eexists; repeat split. Qed.

Lemma two_coordinates x y : coordinate x -> coordinate y -> Forall coordinate [x; y].
Proof. intros X Y. apply Forall_cons; [exact X|apply Forall_cons; [exact Y|apply Forall_nil]]. Qed.
Lemma two_good arg pos x y n : at_args arg 0 [x; y; n] -> coordinate x -> coordinate y -> parse_from arg pos 0 2 = Some (Ok [x; y]).
Proof.
  intros A X Y. apply (parse_good arg pos [x; y] 0); [|apply two_coordinates; assumption].
  intros i z E. apply A. destruct i as [|[|[|i]]]; try discriminate E; exact E.
Qed.

Ltac no_value := intros v0 E0; discriminate E0.
Ltac an_int t := intros v0 E0; (eapply declares_integer; [reflexivity| |exact E0]); t.
Ltac empty := intros k0 t0 I0; repeat match goal with H : In _ (_ :: _) |- _ => destruct H as [H|H]; [discriminate H|] | H : In _ [] |- _ => destruct H end.
Lemma gfx_provides : provides provided_ (gfx_does perform size_pixels peek_pixel).
Proof.
  intros k gs w r w' H.
  destruct H as [k zs op w r w' S0 F P|k zs op msg w S0 B|k zs w K O L|k f x y n w r w' C X Y R P|k f x y n msg w C B|k f x y n d w C X Y R D|k f x y n d w C X Y R D
    |w r w' P|b w w1 r w' P Q|b w e w' P|x y w SZ L|x y w SZ L|k e w K SZ|x y c w X Y PK L|x y w X Y PK|x y e w X Y PK|x y msg w B].
  - split; [apply only_ints|]. destruct (shape_provided _ _ _ S0) as (p & f & FI & RE & E & EX). exists p. split; [exact FI|].
    split; [intros v E0; apply declares_none; [exact RE|exact (performs_value _ _ _ _ _ P E0)]|]. intros arg text_of pos GF LE.
    unfold ints in LE. rewrite map_length in LE. rewrite (EX _ _ _ _ LE). unfold shape_exec.
    rewrite (parse_good arg pos zs 0 (given_ints _ _ _ GF) F), E. destruct (ask_performs _ _ _ _ P) as (r' & -> & SA). exists r'. split; [reflexivity|exact SA].
  - split; [apply only_ints|]. destruct (shape_provided _ _ _ S0) as (p & f & FI & RE & E & EX). exists p. split; [exact FI|].
    split; [no_value|]. intros arg text_of pos GF LE. unfold ints in LE. rewrite map_length in LE. rewrite (EX _ _ _ _ LE). unfold shape_exec.
    destruct (parse_bad arg pos zs msg 0 (given_ints _ _ _ GF) B) as [q ->]; [lia|]. eexists. split; reflexivity.
  - split; [apply only_ints|]. assert (P : exists p f, find (fun p => ustr_eqb (pv_name p) k) provided_ = Some p /\
      forall arg text_of pos w, pv_exec p arg text_of pos w = poly_exec perform arg pos f w) by (destruct K as [->| ->]; do 2 eexists; split; reflexivity).
    destruct P as (p & f & FI & EX). exists p. split; [exact FI|]. split; [no_value|]. intros arg text_of pos GF LE. unfold ints in LE. rewrite map_length in LE.
    rewrite EX. unfold poly_exec. rewrite LE, O. replace (length zs =? 1) with false by (symmetry; apply Nat.eqb_neq; lia).
    replace (256 <? length zs) with false by (symmetry; apply Nat.ltb_ge; lia). unfold syntax_error.
    destruct (nth_error pos (length zs - 1)) as [q|] eqn:Q; [|apply nth_error_None in Q; lia]. eexists. split; reflexivity.
  - split; [apply only_ints|]. destruct (circle_provided _ _ C) as (p & FI & RE & EX). exists p. split; [exact FI|].
    split; [intros v E0; apply declares_none; [exact RE|exact (performs_value _ _ _ _ _ P E0)]|]. intros arg text_of pos GF LE. rewrite EX. unfold circle_exec.
    pose proof (given_ints _ _ _ GF) as A. rewrite (two_good arg pos x y n A X Y).
    unfold parse_radius. rewrite (A 2 n eq_refl : as_i32 (arg 2) = n). replace ((0 <=? n) && (n <=? 65535))%Z with true by lia.
    destruct (ask_performs _ _ _ _ P) as (r' & -> & SA). exists r'. split; [reflexivity|exact SA].
  - split; [apply only_ints|]. destruct (circle_provided _ _ C) as (p & FI & RE & EX). exists p. split; [exact FI|].
    split; [no_value|]. intros arg text_of pos GF LE. rewrite EX. unfold circle_exec. cbn [ints map length] in LE.
    pose proof (given_ints _ _ _ GF) as A. destruct (parse_bad arg pos [x; y] msg 0) as [q Q];
      [intros i z E; apply A; destruct i as [|[|[|i]]]; try discriminate E; exact E|exact B|cbn [length]; lia|].
    cbn [length] in Q. rewrite Q. eexists. split; reflexivity.
  - split; [apply only_ints|]. destruct (circle_provided _ _ C) as (p & FI & RE & EX). exists p. split; [exact FI|].
    split; [no_value|]. intros arg text_of pos GF LE. rewrite EX. unfold circle_exec. cbn [ints map length] in LE.
    pose proof (given_ints _ _ _ GF) as A. rewrite (two_good arg pos x y n A X Y).
    unfold parse_radius. rewrite (A 2 n eq_refl : as_i32 (arg 2) = n). replace ((0 <=? n) && (n <=? 65535))%Z with false by lia.
    rewrite (proj2 (Z.ltb_lt n 0) R), (to_string_decimal _ _ D). unfold syntax_error.
    destruct (nth_error pos 2) as [q|] eqn:Q; [|apply nth_error_None in Q; lia]. eexists. split; reflexivity.
  - split; [apply only_ints|]. destruct (circle_provided _ _ C) as (p & FI & RE & EX). exists p. split; [exact FI|].
    split; [no_value|]. intros arg text_of pos GF LE. rewrite EX. unfold circle_exec. cbn [ints map length] in LE.
    pose proof (given_ints _ _ _ GF) as A. rewrite (two_good arg pos x y n A X Y).
    unfold parse_radius. rewrite (A 2 n eq_refl : as_i32 (arg 2) = n). replace ((0 <=? n) && (n <=? 65535))%Z with false by lia.
    replace (n <? 0)%Z with false by lia. rewrite (to_string_decimal _ _ D). unfold syntax_error.
    destruct (nth_error pos 2) as [q|] eqn:Q; [|apply nth_error_None in Q; lia]. eexists. split; reflexivity.
  - split; [empty|]. eexists. split; [reflexivity|]. split; [intros v E0; apply declares_none; [reflexivity|exact (performs_value _ _ _ _ _ P E0)]|].
    intros arg text_of pos GF LE. cbn [pv_exec gfx_command]. unfold sync_exec. cbn [length] in LE. rewrite LE. cbn [Nat.eqb].
    destruct (ask_performs _ _ _ _ P) as (r' & -> & SA). exists r'. split; [reflexivity|exact SA].
  - split; [empty|]. eexists. split; [reflexivity|]. split; [intros v E0; apply declares_none; [reflexivity|exact (performs_value _ _ _ _ _ Q E0)]|].
    intros arg text_of pos GF LE. cbn [pv_exec gfx_command]. unfold sync_exec. cbn [length] in LE. rewrite LE. cbn [Nat.eqb].
    pose proof (GF 0 _ eq_refl) as G0. cbn [given_at Nat.add] in G0. rewrite G0. destruct (ask_performs _ _ _ _ P) as (r1 & E1 & SA1).
    replace (negb ((if b then 1 else 0) =? 0)%N) with b by (destruct b; reflexivity). rewrite E1.
    destruct r1 as [v1|[p1 m1]]; [|discriminate SA1]. destruct (ask_performs _ _ _ _ Q) as (r' & -> & SA). exists r'. split; [reflexivity|exact SA].
  - split; [empty|]. eexists. split; [reflexivity|]. split; [no_value|].
    intros arg text_of pos GF LE. cbn [pv_exec gfx_command]. unfold sync_exec. cbn [length] in LE. rewrite LE. cbn [Nat.eqb].
    pose proof (GF 0 _ eq_refl) as G0. cbn [given_at Nat.add] in G0. rewrite G0. destruct (ask_performs _ _ _ _ P) as (r1 & E1 & SA1).
    replace (negb ((if b then 1 else 0) =? 0)%N) with b by (destruct b; reflexivity). rewrite E1.
    destruct r1 as [v1|[p1 m1]]; [discriminate SA1|]. eexists. split; [reflexivity|exact SA1].
  - split; [empty|]. eexists. split; [reflexivity|]. split; [an_int ltac:(unfold in_i32, i32_min, i32_max; lia)|].
    intros arg text_of pos GF LE. cbn [pv_exec gfx_command]. unfold size_exec. rewrite SZ. eexists. split; reflexivity.
  - split; [empty|]. eexists. split; [reflexivity|]. split; [an_int ltac:(unfold in_i32, i32_min, i32_max; lia)|].
    intros arg text_of pos GF LE. cbn [pv_exec gfx_command]. unfold size_exec. rewrite SZ. eexists. split; reflexivity.
  - split; [empty|]. destruct K as [->| ->]; eexists; (split; [reflexivity|]); (split; [no_value|]);
      intros arg text_of pos GF LE; cbn [pv_exec gfx_command]; unfold size_exec; rewrite SZ; eexists; split; reflexivity.
  - split; [apply only_ints|]. eexists. split; [reflexivity|]. split; [an_int ltac:(unfold in_i32, i32_min, i32_max; lia)|].
    intros arg text_of pos GF LE. cbn [pv_exec gfx_command]. unfold peek_exec.
    pose proof (parse_good arg pos [x; y] 0 (given_ints _ _ _ GF)) as Q. cbn [length] in Q. rewrite Q, PK by (apply two_coordinates; assumption). eexists. split; reflexivity.
  - split; [apply only_ints|]. eexists. split; [reflexivity|]. split; [an_int ltac:(unfold in_i32, i32_min, i32_max; lia)|].
    intros arg text_of pos GF LE. cbn [pv_exec gfx_command]. unfold peek_exec.
    pose proof (parse_good arg pos [x; y] 0 (given_ints _ _ _ GF)) as Q. cbn [length] in Q. rewrite Q, PK by (apply two_coordinates; assumption). eexists. split; reflexivity.
  - split; [apply only_ints|]. eexists. split; [reflexivity|]. split; [no_value|].
    intros arg text_of pos GF LE. cbn [pv_exec gfx_command]. unfold peek_exec.
    pose proof (parse_good arg pos [x; y] 0 (given_ints _ _ _ GF)) as Q. cbn [length] in Q. rewrite Q, PK by (apply two_coordinates; assumption). eexists. split; reflexivity.
  - split; [apply only_ints|]. eexists. split; [reflexivity|]. split; [no_value|].
    intros arg text_of pos GF LE. cbn [pv_exec gfx_command]. unfold peek_exec. cbn [ints map length] in LE.
    destruct (parse_bad arg pos [x; y] msg 0 (given_ints _ _ _ GF) B) as [q Q]; [cbn [length]; lia|]. cbn [length] in Q. rewrite Q. eexists. split; reflexivity.
Qed.
End Provides.

Lemma bad_or_good zs : Forall coordinate zs \/ exists msg, first_bad zs msg.
Proof.
  induction zs as [|z zs IH]; [left; apply Forall_nil|]. assert (D : coordinate z \/ ~ coordinate z) by (unfold coordinate; lia). destruct D as [C|C].
  - destruct IH as [F|[msg (b & y & a & d & -> & F & N0 & D & M)]]; [left; apply Forall_cons; assumption|]. right. exists msg, (z :: b), y, a, d.
    split; [reflexivity|]. split; [apply Forall_cons; assumption|]. repeat split; assumption.
  - right. destruct (decimal_exists z) as [d D]. exists (u "Coordinate " ++ d ++ u " out of range"), [], z, zs, d. repeat split; try assumption. apply Forall_nil.
Qed.
Lemma shape_fits k zs op : shape k zs op -> Forall coordinate zs -> op_fits op.
Proof.
  intros S0 F. rewrite Forall_forall in F.
  assert (P : forall l p, zs = flat l -> In p l -> point_fits p).
  { intros l p -> I0. split; apply F; unfold flat; apply in_flat_map; exists p; (split; [exact I0|]); [left|right; left]; reflexivity. }
  destruct S0; cbn [op_fits]; repeat match goal with |- _ /\ _ => split end; try (intros p I0); (eapply P; [reflexivity|]); try exact I0; cbn [In]; tauto.
Qed.
Lemma in_range (W : Type) (perform : gfx_op -> W -> W * option ustr) size_pixels peek_pixel k gs w r w' :
  gfx_does perform size_pixels peek_pixel k gs w r w' -> only_drawn perform w w'.
Proof.
  assert (ONE : forall op w r w' w2, op_fits op -> performs perform op w r w' -> only_drawn perform w' w2 -> only_drawn perform w w2).
  { intros * OF (e & P & _) D. eapply Drawn_op; eassumption. }
  intros H. destruct H; try apply Drawn_nothing.
  - eapply ONE; [eapply shape_fits; eassumption|eassumption|apply Drawn_nothing].
  - eapply ONE; [|eassumption|apply Drawn_nothing]. match goal with C : circle _ _ |- _ => destruct C end; (split; [split; assumption|assumption]).
  - eapply ONE; [|eassumption|apply Drawn_nothing]. exact Logic.I.
  - eapply (ONE (if b then ShowCursor else HideCursor)); [destruct b; exact Logic.I|eassumption|]. eapply ONE; [|eassumption|apply Drawn_nothing]. exact Logic.I.
  - eapply (ONE (if b then ShowCursor else HideCursor)); [destruct b; exact Logic.I|eassumption|apply Drawn_nothing].
Qed.
Lemma ints_inj a : forall b, ints a = ints b -> a = b.
Proof. induction a as [|x a IH]; intros [|y b] E; try discriminate E; [reflexivity|]. injection E as -> E. f_equal. apply IH, E. Qed.
Lemma unchanged (W : Type) (perform : gfx_op -> W -> W * option ustr) size_pixels peek_pixel k gs w r w' :
  gfx_does perform size_pixels peek_pixel k gs w r w' ->
  (k = u "GFX_WIDTH" \/ k = u "GFX_HEIGHT" \/ k = u "GFX_PEEK" -> w' = w) /\
  (forall zs z, gs = ints zs -> In z zs -> ~ coordinate z -> (k <> u "GFX_CIRCLE" /\ k <> u "GFX_CIRCLEF") \/ (z < 0 \/ 65535 < z)%Z -> w' = w).
Proof.
  intros H. destruct H; (split; [try (intros; reflexivity)|try (intros; reflexivity)]);
    try (intros [E|[E|E]]; discriminate E); try (intros zs0 z0 E I0; destruct zs0; [destruct I0|discriminate E]).
  - match goal with S0 : shape _ _ _ |- _ => destruct S0 end; intros [E|[E|E]]; discriminate E.
  - intros zs0 z0 E I0 N0. apply ints_inj in E. subst zs0. match goal with F : Forall _ _ |- _ => rewrite Forall_forall in F; destruct (N0 (F _ I0)) end.
  - match goal with C : circle _ _ |- _ => destruct C end; intros [E|[E|E]]; discriminate E.
  - intros zs0 z0 E I0 N0 L. apply ints_inj in E. subst zs0. destruct I0 as [<-|[<-|[<-|[]]]]; [contradiction|contradiction|].
    destruct L as [[A B]|L]; [|lia]. match goal with C : circle _ _ |- _ => destruct C end; [destruct (A eq_refl)|destruct (B eq_refl)].
Qed.
