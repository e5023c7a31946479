(** The numerical functions and commands in programs: C74. *)
From Coq Require Import String.
From Verif Require Import Base Bytecode_Model Mem_Model Num_Model Num_Spec Num_Proofs Vm_Model Vm_Spec Ids_Model Ast_Model Syms_Model
  Codegen_Model Exprs_Model Top_Model Incr_Spec Args_Spec Eval_Spec Eval_Props Call_Spec Host_Model Host_Case
  Exec_Spec Program_Proofs User_Spec User_Proofs Exec_Props User_Props Host_Props Cmds_Model Cmds_Spec Cmds_Props
  Input_Model Input_Props Read_Props Lib_Model Lib_Spec Lib_Proofs Lib_Run Gpio_Proofs Numerics_Model Numerics_Spec Numerics_Proofs Numerics_Range.
Local Open Scope string_scope.
Local Open Scope list_scope.
Local Open Scope nat_scope.

Definition numeric_names : list ustr :=
  [u "ABS"; u "ACOS"; u "ASIN"; u "ATN"; u "CINT"; u "COS"; u "DEG"; u "EXP"; u "FIX"; u "INT"; u "LOG"; u "MAX"; u "MIN"; u "PI"; u "RAD";
   u "RANDOMIZE"; u "RND"; u "ROUND"; u "SGN"; u "SIN"; u "SQR"; u "TAN"].

(** They do what they should, added to any host that does. *)
Theorem C74_numerics_obeys : forall lm show_double (G X : Type) (rng : generator G X) img ups shared other others mds,
  host_obeys other img ups others mds shared ->
  host_obeys (lib_host (numerics_provided lm show_double rng) other ups) img ups
    (value_calls (numerics_does lm show_double rng) numeric_names others) (lib_upcalls (numerics_provided lm show_double rng) ++ mds) shared.
Proof. intros * OB. apply (lib_obeys img (numerics_provided lm show_double rng)); [exact OB|apply numerics_provides]. Qed.
Print Assumptions C74_numerics_obeys.

(** Whatever the double that they are given, they have a value or an error. *)
Theorem C74_every_call : forall lm show_double (G X : Type) (w : numbers G X) x k, (x < 2 ^ 64)%N ->
  In k [u "ABS"; u "ACOS"; u "ASIN"; u "ATN"; u "CINT"; u "COS"; u "EXP"; u "FIX"; u "INT"; u "LOG"; u "ROUND"; u "SGN"; u "SIN"; u "SQR"; u "TAN"] ->
  exists r, computes lm show_double w k x r.
Proof.
  intros * LT I0. assert (UN : {f64_le f64_minus_one x = true /\ f64_le x f64_one = true} + {f64_le f64_minus_one x = false \/ f64_le x f64_one = false}).
  { destruct (f64_le f64_minus_one x), (f64_le x f64_one); [left; split; reflexivity|right; right; reflexivity|right; left; reflexivity|right; left; reflexivity]. }
  assert (CA : forall (way : N -> Z -> Prop), (forall num den, double_value x = Some (num, den) -> exists n, way x n /\ exists y, representable y /\ is_int_float y n) ->
    exists r, casts show_double way x r).
  { intros way F. destruct (double_value x) as [[num den]|] eqn:V; [|eexists; apply Casts_not_finite, V].
    destruct (F num den eq_refl) as (n & WN & y & RY & FY). destruct (is_i32 n) eqn:Q.
    - eexists. apply (Casts_fits _ _ _ n WN). apply is_i32_spec, Q.
    - eexists. apply (Casts_large _ _ _ n (f64_bits y) WN); [rewrite <- is_i32_spec, Q; discriminate|apply int_whole; assumption|apply bits_small, RY]. }
  repeat (destruct I0 as [<-|I0]; [|]); [..|destruct I0].
  - destruct (N.lt_ge_cases x (2 ^ 63)) as [L|L].
    + eexists. apply (Computes_abs _ _ _ x x). split; [exact L|left; reflexivity].
    + eexists. apply (Computes_abs _ _ _ x (x - 2 ^ 63)%N). change (2 ^ 64)%N with (2 ^ 63 + 2 ^ 63)%N in LT.
      split; [|right]; lia.
  - destruct UN as [[A B]|A]; eexists; [apply Computes_acos|apply Computes_acos_not]; assumption.
  - destruct UN as [[A B]|A]; eexists; [apply Computes_asin|apply Computes_asin_not]; assumption.
  - eexists. apply Computes_atn.
  - destruct (CA to_nearest) as [r H]; [|eexists; apply Computes_cint; exact H].
    intros num den V. destruct (round_value _ _ _ V) as (_ & n & NA & F). exists n. split; [exists num, den; split; assumption|].
    eexists. split; [|exact F]. apply rep_round, sf_representable.
  - eexists. apply Computes_cos.
  - destruct (double_value (m_exp lm x)) eqn:V; eexists; [apply Computes_exp; rewrite V; discriminate|apply Computes_exp_not, V].
  - destruct (CA towards_zero) as [r H]; [|eexists; apply Computes_fix; exact H].
    intros num den V. destruct (trunc_value _ _ _ V) as (n & F & TZ). exists n. split; [exact TZ|].
    eexists. split; [|exact F]. apply rep_trunc, sf_representable.
  - destruct (CA downwards) as [r H]; [|eexists; apply Computes_int; exact H].
    intros num den V. destruct (floor_value _ _ _ V) as (F & FL). exists (num / den)%Z. split; [exists num, den; split; assumption|].
    eexists. split; [|exact F]. apply rep_floor, sf_representable.
  - destruct (f64_le x 0) eqn:L; eexists; [apply Computes_log_not, L|apply Computes_log, L].
  - destruct (rounds_exists x) as [y H]. eexists. apply Computes_round. exact H.
  - destruct (f64_sf x) as [s|s| |s m e] eqn:F.
    + eexists. apply Computes_sgn. eapply (Sign_finite x 0 1). unfold double_value. rewrite F. reflexivity.
    + eexists. apply Computes_sgn. eapply Sign_infinite. exact F.
    + eexists. apply Computes_sgn. eapply Sign_nan. exact F.
    + destruct (double_value x) as [[num den]|] eqn:V; [eexists; apply Computes_sgn; eapply Sign_finite; exact V|].
      exfalso. unfold double_value in V. rewrite F in V. destruct (0 <=? e)%Z; discriminate V.
  - eexists. apply Computes_sin.
  - destruct (f64_lt x 0) eqn:L; eexists; [apply Computes_sqr_not, L|apply Computes_sqr, L].
  - eexists. apply Computes_tan.
Qed.
Print Assumptions C74_every_call.

(** In programs, [a = f(args)] leaves that value in the variable, or fails with that message. *)
Theorem C74_function : forall powf lm show_double (G X : Type) (rng : generator G X) upcall others defined n hidden up defs k img x x' a p v q args md syn gs r w t c m
    (s s1 : env (numbers G X)),
  linked up defs upcall k img defined (value_calls (numerics_does lm show_double rng) numeric_names others) ->
  compiled_in up defs k img x [StAssignment a p (ECall v q args)] x' -> stmt_fine (k_syms k) (StAssignment a p (ECall v q args)) ->
  ready (runnable img) (k_syms k) hidden x c m s ->
  get_callable (ls_global (k_syms k)) (ascii_upper (vr_name v)) = Some md -> chosen md (length args) syn ->
  delivers powf (get_callable (ls_global (k_syms k))) (is_variable (k_syms k))
    (linked_calls powf k defined (value_calls (numerics_does lm show_double rng) numeric_names others) (S n)) false s (wants syn args) (Ok gs) s1 ->
  numerics_does lm show_double rng (ascii_upper (vr_name v)) gs (world s1) r w ->
  declared (k_syms k) (ascii_upper (vr_name a)) = Some t ->
  match r with
  | Ok (Some d) => forall d', convert t d = Some (Ok d') ->
      outcome_of powf upcall (runnable img) (k_syms k) hidden x' c m (store (mkEnv (vals s1) w) (ascii_upper (vr_name a)) (Scalar d')) SigNormal
  | Ok None => True
  | Err msg => exists c' m', runs powf upcall (runnable img) c m c' m' /\
      (gives_up powf upcall (runnable img) c' m' \/ fails powf upcall (runnable img) c' m' (XUpcall msg) w)
  end.
Proof. intros * LN CI FI R GC CH DE D T. exact (lib_function powf _ _ _ _ _ _ _ _ _ LN n hidden x x' a p v q args md syn gs r w t c m s s1 CI FI R GC CH DE D T). Qed.
Print Assumptions C74_function.

(** DEG, RAD and RANDOMIZE as statements change the world that way. *)
Theorem C74_statement : forall powf lm show_double (G X : Type) (rng : generator G X) upcall others defined n hidden up defs k img x x' v p args md syn gs r w c m
    (s s1 : env (numbers G X)),
  linked up defs upcall k img defined (value_calls (numerics_does lm show_double rng) numeric_names others) ->
  compiled_in up defs k img x [StCall v p args] x' -> stmt_fine (k_syms k) (StCall v p args) ->
  ready (runnable img) (k_syms k) hidden x c m s ->
  get_callable (ls_global (k_syms k)) (ascii_upper (vr_name v)) = Some md -> chosen md (length args) syn ->
  delivers powf (get_callable (ls_global (k_syms k))) (is_variable (k_syms k))
    (linked_calls powf k defined (value_calls (numerics_does lm show_double rng) numeric_names others) (S n)) true s (wants syn args) (Ok gs) s1 ->
  numerics_does lm show_double rng (ascii_upper (vr_name v)) gs (world s1) r w ->
  match r with
  | Ok None => outcome_of powf upcall (runnable img) (k_syms k) hidden x' c m (mkEnv (vals s1) w) SigNormal
  | Ok (Some _) => True
  | Err msg => exists c' m', runs powf upcall (runnable img) c m c' m' /\
      (gives_up powf upcall (runnable img) c' m' \/ fails powf upcall (runnable img) c' m' (XUpcall msg) w)
  end.
Proof.
  intros * LN CI FI R GC CH DE D. assert (OV : only_values gs).
  { clear -D. destruct D; intros k0 t0 I0; try (apply in_map_iff in I0; destruct I0 as (d0 & E0 & _); discriminate E0);
      repeat (destruct I0 as [E0|I0]; [discriminate E0|]); destruct I0. }
  exact (lib_statement powf _ _ _ _ _ _ _ _ _ LN n hidden x x' v p args md syn gs r w c m s s1 CI FI R GC CH DE OV D).
Qed.
Print Assumptions C74_statement.

(** INT and FIX are the same above zero and below it FIX is the next integer, unless there is
    nothing after the point. *)
Theorem C74_int_fix : forall x n m num den, double_value x = Some (num, den) -> downwards x n -> towards_zero x m ->
  (0 <= num -> m = n)%Z /\ (num < 0 -> ~ whole x n -> m = n + 1)%Z /\ (whole x n -> m = n).
Proof.
  intros * V (num1 & den1 & V1 & A) (num2 & den2 & V2 & B & C). rewrite V in V1, V2. injection V1 as <- <-. injection V2 as <- <-.
  pose proof (value_positive _ _ _ V) as D. unfold floor_of in A. split; [|split].
  - intros P. rewrite (Z.abs_eq num P) in B. assert (0 <= n)%Z by nia. assert (0 <= m)%Z by nia. rewrite (Z.abs_eq m) in B by assumption. nia.
  - intros P NW. assert (NE : (num <> n * den)%Z) by (intros E; apply NW; exists num, den; split; [exact V|]; split; [exact D|exact E]).
    assert (m <= 0)%Z by nia. rewrite (Z.abs_neq num), (Z.abs_neq m) in B by lia. nia.
  - intros (num3 & den3 & V3 & _ & E). rewrite V in V3. injection V3 as <- <-. subst num. rewrite Z.abs_mul, (Z.abs_eq den) in B by lia.
    assert (AE : Z.abs m = Z.abs n) by nia. assert (0 <= n * m)%Z by nia. destruct (Z.eq_dec m n) as [|NE]; [assumption|]. assert (m = - n)%Z by lia. subst m. nia.
Qed.
Print Assumptions C74_int_fix.

Lemma some_pair (a b c d : Z) : Some (a, b) = Some (c, d) -> a = c /\ b = d.
Proof. intros E. injection E as -> ->. split; reflexivity. Qed.
(** The absolute value is that of the number. *)
Theorem C74_absolute : forall x y num den, absolute x y -> double_value x = Some (num, den) -> double_value y = Some (Z.abs num, den).
Proof.
  intros x y num den [LT E] V. destruct E as [->|E].
  - rewrite V. f_equal. f_equal. symmetry. apply Z.abs_eq. pose proof (sf_sign y) as SG. unfold double_value in V.
    assert (T0 : N.testbit y 63 = false).
    { rewrite N.testbit_eqb. rewrite N.div_small by exact LT. reflexivity. }
    destruct (f64_sf y) as [s|s| |s m e]; try discriminate V; [injection V as <- _; lia|]. rewrite SG, T0 in V.
    destruct (Z.leb_spec 0 e); apply some_pair in V; destruct V as [<- _]; [|lia]. apply Z.mul_nonneg_nonneg; [lia|apply Z.pow_nonneg; lia].
  - assert (F : f64_sf x = match f64_sf y with S754_zero s => S754_zero true | S754_infinity s => S754_infinity true | S754_nan => S754_nan
      | S754_finite s m e => S754_finite true m e end /\ match f64_sf y with S754_zero s | S754_infinity s | S754_finite s _ _ => s = false | _ => True end).
    { assert (TX : N.testbit x 63 = true).
      { rewrite E, N.testbit_eqb. change (2 ^ 63)%N with 9223372036854775808%N in *. replace ((y + 9223372036854775808) / 9223372036854775808)%N with 1%N by lia. reflexivity. }
      assert (TY : N.testbit y 63 = false) by (rewrite N.testbit_eqb, N.div_small by exact LT; reflexivity).
      assert (M1 : N.land x (2 ^ 52 - 1) = N.land y (2 ^ 52 - 1)).
      { change (2 ^ 52 - 1)%N with (N.ones 52). rewrite !N.land_ones, E. change (2 ^ 63)%N with (2048 * 2 ^ 52)%N. rewrite N.mod_add by discriminate. reflexivity. }
      assert (M2 : N.land (N.shiftr x 52) 2047 = N.land (N.shiftr y 52) 2047).
      { change 2047%N with (N.ones 11). rewrite !N.land_ones, !N.shiftr_div_pow2, E. change (2 ^ 63)%N with (2048 * 2 ^ 52)%N.
        rewrite N.div_add by discriminate. change (2 ^ 11)%N with 2048%N. rewrite <- (N.mul_1_l 2048) at 1. rewrite N.mod_add by discriminate. reflexivity. }
      split; [|pose proof (sf_sign y) as SG; rewrite TY in SG; exact SG].
      unfold f64_sf. rewrite TX, TY, M1, M2. destruct (_ =? 2047)%Z; [destruct (_ =? 0)%N; reflexivity|]. destruct (_ =? 0)%Z.
      - destruct (N.land y (2 ^ 52 - 1)); reflexivity.
      - destruct (N.land y (2 ^ 52 - 1) + 2 ^ 52)%N; reflexivity. }
    destruct F as [F SY]. unfold double_value in *. rewrite F in V. destruct (f64_sf y) as [s|s| |s m e]; try discriminate V.
    + injection V as <- <-. reflexivity.
    + subst s. destruct (Z.leb_spec 0 e); apply some_pair in V; destruct V as [<- <-]; [|reflexivity]. rewrite Z.abs_mul, (Z.abs_eq (2 ^ e)) by (apply Z.pow_nonneg; lia). reflexivity.
Qed.
Print Assumptions C74_absolute.

(** ** MAX and MIN *)

(** The maximum of numbers that are finite is one of them, and none is above it; the minimum
    likewise. *)
Definition finite_numbers (l : list N) : Prop := forall x, In x l -> double_value x <> None.
Theorem C74_maximum : forall l y, l <> [] -> finite_numbers l -> greatest f64_min l y ->
  (exists x, In x l /\ f64_eq x y = true) /\ (forall x, In x l -> f64_lt y x = false).
Proof. exact maximum_is. Qed.
Print Assumptions C74_maximum.
Theorem C74_minimum : forall l y, l <> [] -> finite_numbers l -> least f64_max l y ->
  (exists x, In x l /\ f64_eq x y = true) /\ (forall x, In x l -> f64_lt x y = false).
Proof. exact minimum_is. Qed.
Print Assumptions C74_minimum.

(** With infinities and NaN it is not: the maximum of minus infinity alone is the least finite
    number, and so is that of NaN. *)
Theorem C74_maximum_refuted : exists l y, greatest f64_min l y /\ l = [0xfff0000000000000%N] /\ y <> 0xfff0000000000000%N /\ f64_eq 0xfff0000000000000 y = false /\
  (exists y', greatest f64_min [0x7ff8000000000000%N] y' /\ double_value y' <> None).
Proof.
  exists [0xfff0000000000000%N], f64_min. split; [|split; [reflexivity|split; [discriminate|split; [reflexivity|]]]].
  - exists [], [0xfff0000000000000%N]. split; [reflexivity|]. split; [intros x []|]. intros x [<-|[]]. reflexivity.
  - exists f64_min. split; [|discriminate]. exists [], [0x7ff8000000000000%N]. split; [reflexivity|]. split; [intros x []|]. intros x [<-|[]]. reflexivity.
Qed.
Print Assumptions C74_maximum_refuted.

(** ** Angles and random numbers *)

(** The angle mode changes with DEG and RAD only, and the generator with RANDOMIZE and RND only. *)
Theorem C74_state_kept : forall lm show_double (G X : Type) (rng : generator G X) k gs w r w', numerics_does lm show_double rng k gs w r w' ->
  (k <> u "DEG" -> k <> u "RAD" -> nm_degrees w' = nm_degrees w) /\
  (k <> u "RANDOMIZE" -> k <> u "RND" -> nm_gen w' = nm_gen w /\ nm_last w' = nm_last w) /\ (k <> u "RANDOMIZE" -> nm_rest w' = nm_rest w).
Proof.
  intros * H. destruct H; repeat split; intros; try reflexivity; match goal with H : ?a <> ?a |- _ => destruct (H eq_refl) end.
Qed.
Print Assumptions C74_state_kept.

(** After RANDOMIZE with a seed come the same numbers, whatever there was before it. *)
Theorem C74_random_repeats : forall lm show_double (G X : Type) (rng : generator G X) z w1 w2 w1' w2' l1 l2 e1 e2,
  numerics_does lm show_double rng (u "RANDOMIZE") [GValue (CInt z)] w1 (Ok None) w1' ->
  numerics_does lm show_double rng (u "RANDOMIZE") [GValue (CInt z)] w2 (Ok None) w2' ->
  draws lm show_double rng w1' l1 e1 -> draws lm show_double rng w2' l2 e2 -> length l1 = length l2 -> l1 = l2.
Proof. exact random_repeats. Qed.
Print Assumptions C74_random_repeats.

(** [RND(0)] is the last number again, any number of times, and [RND(-n)] is the number that
    [RND(0)] gives after [RANDOMIZE -n]. *)
Theorem C74_random_last : forall lm show_double (G X : Type) (rng : generator G X) gs w r w',
  numerics_does lm show_double rng (u "RND") gs w r w' -> numerics_does lm show_double rng (u "RND") [GValue (CInt 0)] w' r w'.
Proof. exact random_last. Qed.
Print Assumptions C74_random_last.
Theorem C74_random_seed : forall lm show_double (G X : Type) (rng : generator G X) z w r w' v v', (z < 0)%Z ->
  numerics_does lm show_double rng (u "RND") [GValue (CInt z)] w r w' ->
  numerics_does lm show_double rng (u "RANDOMIZE") [GValue (CInt z)] v (Ok None) v' ->
  numerics_does lm show_double rng (u "RND") [GValue (CInt 0)] v' r v'.
Proof. exact random_seed. Qed.
Print Assumptions C74_random_seed.

(** Random numbers are between 0 and 1, both included, if those of the generator have 32 bits. *)
Theorem C74_random_range : forall lm show_double (G X : Type) (rng : generator G X) gs w r w',
  (forall g, snd (next_u32 rng g) < 2 ^ 32)%N -> (nm_last w < 2 ^ 32)%N -> numerics_does lm show_double rng (u "RND") gs w r w' ->
  (nm_last w' < 2 ^ 32)%N /\ exists d, r = Ok (Some (CDouble d)) /\ f64_le 0 d = true /\ f64_le d f64_one = true.
Proof.
  intros * GB LB H. assert (F : forall n, (n < 2 ^ 32)%N -> exists d, fraction n = Ok (Some (CDouble d)) /\ f64_le 0 d = true /\ f64_le d f64_one = true).
  { intros n L. exists (f64_div (f64_of_u32 n) f64_u32_max). split; [reflexivity|]. apply random_range, L. }
  destruct (rnd_does lm show_double rng _ _ _ _ _ H eq_refl) as [(g & n & E & -> & -> & _)|[(-> & -> & _)|(z & g & n & _ & _ & E & -> & ->)]].
  - pose proof (GB (nm_gen w)) as B. rewrite E in B. split; [exact B|apply F, B].
  - split; [exact LB|apply F, LB].
  - pose proof (GB (seed_from_u64 rng (Z.to_N (z mod 2 ^ 64)))) as B. rewrite E in B. split; [exact B|apply F, B].
Qed.
Print Assumptions C74_random_range.

(** ** Cases *)

(** Some functions and a generator to try with. *)
Definition lm74 : libm := mkLibm (fun x => x) (fun x => x) (fun x => x) (fun x => x) (fun x => x) (fun x => x) (fun x => x) (fun x => x) (fun x z => x).
Definition show74 (x : N) : ustr := u "1".
Definition rng74 : generator N N := mkGenerator (fun g => let n := (N.land (g * 5 + 3) (N.ones 32))%N in (n, n)) (fun s => N.land s (N.ones 32)) (fun x => (x, 0%N)).
Definition numbers74 (ups : list ustr) := lib_host (numerics_provided lm74 show74 rng74) no_host ups.
Definition dbl_ (d : N) : expr := EDouble d at_.
(** Here is
<<
DEG
RANDOMIZE -7
x = RND()
y = RND(0)
n = INT(-2.5)
m = FIX(-2.5)
k = CINT(-2.5)
j = SGN(-2.5)
n = SQR(n)
>>
    which fails after two numbers of the generator, the last of them again, and an integer below zero. *)
Definition minus74 (f : string) : expr := call_ f (dbl_ 0xc004000000000000).
Definition p74 : list stmt :=
  [StCall (v_ "deg") at_ [];
   StCall (v_ "randomize") at_ [(Some (int_ (-7)), SepEnd, at_)];
   set_ "x" (ECall (v_ "rnd") at_ []);
   set_ "y" (call_ "rnd" (int_ 0));
   set_ "n" (minus74 "int"); set_ "m" (minus74 "fix"); set_ "k" (minus74 "cint"); set_ "j" (minus74 "sgn");
   set_ "n" (call_ "sqr" (var_ "n"))].
Example C74_machine_case : exists img, compile_new (lib_upcalls (numerics_provided lm74 show74 rng74)) [] (p74, None) = (Compiled, img) /\
  forall powf, exists c m, runs powf (numbers74 (ci_upcalls img)) (runnable img) (ctx_new 100) (mkMem (heap_new 10000) (mkNumbers false 0 0 9)%N) c m /\
    fails powf (numbers74 (ci_upcalls img)) (runnable img) c m (XUpcall (u "Cannot take square root of a negative number"))
      (mkNumbers true 4294967139 4294967139 9)%N.
Proof.
  eexists. split; [vm_compute; reflexivity|]. intros powf. do 2 eexists. split; [talk_|].
  eapply fails_by; [left; vm_compute; reflexivity|vm_compute; reflexivity|vm_compute; reflexivity|vm_compute; reflexivity|vm_compute; reflexivity].
Qed.
Example C74_random_case : exists w1 w2, numerics_does lm74 show74 rng74 (u "RANDOMIZE") [GValue (CInt (-7))] (mkNumbers true 1 2 3)%N (Ok None) w1 /\
  numerics_does lm74 show74 rng74 (u "RANDOMIZE") [GValue (CInt (-7))] (mkNumbers true 8 8 8)%N (Ok None) w2 /\ w1 <> w2 /\
  exists e d1 d2, draws lm74 show74 rng74 w1 [d1; d2] e /\ d1 <> d2 /\ (forall g, snd (next_u32 rng74 g) < 2 ^ 32)%N.
Proof.
  eexists _, _. split; [eapply Does_randomize; vm_compute; reflexivity|]. split; [eapply Does_randomize; vm_compute; reflexivity|].
  split; [vm_compute; discriminate|]. exists (mkNumbers true 4294966514 4294966514 3)%N. do 2 eexists. split; [|split].
  - eapply Draws_more; [eapply Does_rnd; vm_compute; reflexivity|]. eapply Draws_more; [eapply Does_rnd; vm_compute; reflexivity|]. vm_compute. apply Draws_none.
  - vm_compute. discriminate.
  - intros g. cbn [rng74 next_u32 snd]. rewrite N.land_ones. apply N.mod_lt. discriminate.
Qed.
(** The greatest of 1, 2.5 and -3. *)
Example C74_maximum_case : greatest f64_min [0x3ff0000000000000; 0x4004000000000000; 0xc008000000000000]%N 0x4004000000000000%N /\
  finite_numbers [0x3ff0000000000000; 0x4004000000000000; 0xc008000000000000]%N.
Proof.
  split.
  - exists [f64_min; 0x3ff0000000000000%N], [0xc008000000000000%N]. split; [reflexivity|]. split.
    + intros x [<-|[<-|[]]]; right; reflexivity.
    + intros x [<-|[]]. reflexivity.
  - intros x [<-|[<-|[<-|[]]]]; vm_compute; discriminate.
Qed.

(** [x = CINT(2.5)] is 3, through [C74_function], and [DEG] through [C74_statement]. *)
Definition upcalls74 : list (ustr * callable_md) := lib_upcalls (numerics_provided lm74 show74 rng74).
Definition calls74 := value_calls (numerics_does lm74 show74 rng74) numeric_names (@no_calls (numbers N N)).
Definition k74 : compiler := match compiler_new upcalls74 [] with COk k => k | _ => mkCompiler tctx_new (enter_scope (gs_new [])) end.
Definition x74 : sst := (set_gen (pop_eof (t_gen (k_ctx k74))) (k_ctx k74), k_syms k74).
Definition y74 (p : list stmt) : sst := match compile_stmts p x74 with COk x => x | _ => x74 end.
Definition k74' (p : list stmt) : compiler := snd (fst (compile_more k74 cimage_default (p, None))).
Definition img74 (p : list stmt) : cimage := snd (compile_more k74 cimage_default (p, None)).
Lemma numerics_named k gs w r w' : numerics_does lm74 show74 rng74 k gs w r w' -> assoc upcalls74 k <> None.
Proof. intros H. destruct H as [k x r w H| | | | | | | | | | | | ]; [destruct H|..]; vm_compute; discriminate. Qed.
Lemma hosted74 p locals : gs_user (ls_global (k_syms (k74' p))) = [] -> gs_upcalls (ls_global (k_syms (k74' p))) = upcalls74 ->
  gs_vars (ls_global (k_syms (k74' p))) = [] -> ls_locals (k_syms (k74' p)) = locals -> (locals = [] \/ locals = [(u "X", (PScalar TInteger, 0%N))]) ->
  hosted (numbers74 (ci_upcalls (img74 p))) (k74' p) (img74 p) calls74.
Proof.
  intros GU GP GV GL LC. split.
  - intros k. right. rewrite GV. reflexivity.
  - split.
    + intros k md. rewrite GU. discriminate.
    + intros k md. rewrite GP. unfold upcalls74, lib_upcalls, numerics_provided, numeric. cbn [map pv_name pv_md assoc].
      repeat match goal with |- context [ustr_eqb ?a k] => destruct (ustr_eqb a k); [intros E; injection E as <-; reflexivity|] end. discriminate.
    + intros k md _. rewrite GV. reflexivity.
    + intros k md t n i _. rewrite GL. destruct LC as [->| ->]; [discriminate|]. unfold id_get. cbn [find fst snd]. destruct (ustr_eqb (u "X") k); discriminate.
  - rewrite GP. unfold upcalls74. rewrite <- (app_nil_r (lib_upcalls _)). apply C74_numerics_obeys. split; try (intros; contradiction). reflexivity.
  - intros k gs s r s'. rewrite GP. intros [k0 gs0 s0 r0 w0 D|? ? ? ? ? _ []]. eapply numerics_named. exact D.
Qed.
Definition set74 : stmt := StAssignment (v_ "x") at_ (ECall (v_ "cint") at_ [(Some (dbl_ 0x4004000000000000), SepEnd, at_)]).
Lemma compiled74 : compiled_in upcalls74 [] (k74' [set74]) (img74 [set74]) x74 [set74] (y74 [set74]).
Proof.
  eapply (compiled_now upcalls74 [] [] k74 cimage_default [] [set74] []); [apply session_start; reflexivity| |reflexivity|]; vm_compute; reflexivity.
Qed.
Lemma fine74 : stmt_fine (k_syms (k74' [set74])) set74.
Proof. intros e o O. inversion O; subst. split; [vm_compute; repeat split; try exact Logic.I; discriminate|]. intros v E. injection E as <-. split; [intros w p L0; discriminate L0|]. left. vm_compute. reflexivity. Qed.
Lemma hosted74_set : hosted (numbers74 (ci_upcalls (img74 [set74]))) (k74' [set74]) (img74 [set74]) calls74.
Proof.
  apply hosted74 with (locals := [(u "X", (PScalar TInteger, 0%N))]);
    [vm_compute; reflexivity|vm_compute; reflexivity|vm_compute; reflexivity|vm_compute; reflexivity|right; reflexivity].
Qed.
Definition w74 : numbers N N := (mkNumbers false 0 0 0)%N.
Example C74_function_case : forall powf, exists s', vals s' (u "X") = Some (Scalar (CInt 3)) /\ world s' = w74 /\
  outcome_of powf (numbers74 (ci_upcalls (img74 [set74]))) (runnable (img74 [set74])) (k_syms (k74' [set74])) (fun _ => None) (y74 [set74])
    (ctx_new 100) (mkMem (heap_new 10000) w74) s' SigNormal.
Proof.
  intros powf. exists (store (mkEnv (fun _ => None) w74) (u "X") (Scalar (CInt 3))). split; [reflexivity|]. split; [reflexivity|].
  refine (C74_function powf lm74 show74 N N rng74 _ no_calls (fun _ _ => False) 0 (fun _ => None) upcalls74 [] (k74' [set74]) (img74 [set74]) x74 (y74 [set74])
    (v_ "x") at_ (v_ "cint") at_ [(Some (dbl_ 0x4004000000000000), SepEnd, at_)] (mkMd (u "CINT") (Some TInteger) false [one_double (u "expr")] false)
    (one_double (u "expr")) [GValue (CDouble 0x4004000000000000)] (Ok (Some (CInt 3))) w74 TInteger _ _ (mkEnv (fun _ => None) w74) (mkEnv (fun _ => None) w74)
    (linked_nothing _ _ _ _ _ _ hosted74_set) compiled74 fine74 _ _ _ _ _ _ _ eq_refl).
  - split; [reflexivity|]. apply new_holds. reflexivity.
  - vm_compute. reflexivity.
  - exists [], []. split; [reflexivity|]. split; [reflexivity|intros y []].
  - unfold wants. cbn [sy_singular sy_repeated fixed_wants fixed_want app one_double].
    eapply (D_more _ _ _ _ _ _ _ _ [GValue (CDouble 0x4004000000000000)]); [apply G_plain; eapply A_value; [apply V_double|reflexivity]|apply D_none].
  - apply Does_compute, Computes_cint, (Casts_fits _ _ _ 3%Z); [|split; discriminate].
    exists 5629499534213120%Z, 2251799813685248%Z. split; [vm_compute; reflexivity|]. unfold nearest_away. lia.
  - vm_compute. reflexivity.
Qed.
Definition st74 : stmt := StCall (v_ "deg") at_ [].
Lemma compiled74' : compiled_in upcalls74 [] (k74' [st74]) (img74 [st74]) x74 [st74] (y74 [st74]).
Proof.
  eapply (compiled_now upcalls74 [] [] k74 cimage_default [] [st74] []); [apply session_start; reflexivity| |reflexivity|]; vm_compute; reflexivity.
Qed.
Lemma fine74' : stmt_fine (k_syms (k74' [st74])) st74.
Proof. intros e o O. inversion O; subst. match goal with H : In _ [] |- _ => destruct H end. Qed.
Lemma hosted74_st : hosted (numbers74 (ci_upcalls (img74 [st74]))) (k74' [st74]) (img74 [st74]) calls74.
Proof. apply hosted74 with (locals := []); [vm_compute; reflexivity|vm_compute; reflexivity|vm_compute; reflexivity|vm_compute; reflexivity|left; reflexivity]. Qed.
Example C74_statement_case : forall powf,
  outcome_of powf (numbers74 (ci_upcalls (img74 [st74]))) (runnable (img74 [st74])) (k_syms (k74' [st74])) (fun _ => None) (y74 [st74])
    (ctx_new 100) (mkMem (heap_new 10000) w74) (mkEnv (fun _ => None) (mkNumbers true 0 0 0)%N) SigNormal.
Proof.
  intros powf.
  refine (C74_statement powf lm74 show74 N N rng74 _ no_calls (fun _ _ => False) 0 (fun _ => None) upcalls74 [] (k74' [st74]) (img74 [st74]) x74 (y74 [st74])
    (v_ "deg") at_ [] (mkMd (u "DEG") None false [nothing] false) nothing [] (Ok None) _ _ _ (mkEnv (fun _ => None) w74) (mkEnv (fun _ => None) w74)
    (linked_nothing _ _ _ _ _ _ hosted74_st) compiled74' fine74' _ _ _ _ _).
  - split; [reflexivity|]. apply new_holds. reflexivity.
  - vm_compute. reflexivity.
  - exists [], []. split; [reflexivity|]. split; [reflexivity|intros y []].
  - unfold wants. cbn [sy_singular sy_repeated fixed_wants app nothing]. apply D_none.
  - apply (Does_deg lm74 show74 rng74 w74).
Qed.
