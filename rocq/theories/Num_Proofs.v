(** Proofs about integer and double arithmetic. *)
From Verif Require Import Base Mem_Model Num_Model Num_Spec.
Local Open Scope Z_scope.

Lemma checked_exact e z : exact_or e z (checked e z).
Proof.
  unfold exact_or, checked. rewrite <- is_i32_spec. destruct (is_i32 z); split; intros; congruence.
Qed.

Lemma trunc_div a b : b <> 0 -> truncated_division a b (Z.quot a b) (Z.rem a b).
Proof.
  intros H. unfold truncated_division. split; [apply Z.quot_rem'|].
  split; [apply Z.rem_bound_abs; assumption|]. intros N. apply Z.rem_sign_nz; assumption.
Qed.

Lemma truncated_division_unique a b q r q' r' :
  truncated_division a b q r -> truncated_division a b q' r' -> q = q' /\ r = r'.
Proof.
  unfold truncated_division. intros (E & B & S) (E' & B' & S').
  assert (Bnz : b <> 0) by lia.
  assert (Z.abs (r - r') < Z.abs b).
  { destruct (Z.eq_dec r 0) as [->|R]; [lia|]. destruct (Z.eq_dec r' 0) as [->|R']; [lia|].
    specialize (S R). specialize (S' R'). lia. }
  assert (b * (q - q') = r' - r) by lia.
  assert (q - q' = 0) by nia. nia.
Qed.

Lemma div_char l r :
  (r = 0 -> checked_div_integer l r = Err EDivZero) /\
  (r <> 0 -> forall q m, truncated_division l r q m -> exact_or EUnderflow q (checked_div_integer l r)).
Proof.
  unfold checked_div_integer. destruct (Z.eqb_spec r 0).
  - split; intros; [reflexivity|contradiction].
  - split; [contradiction|]. intros _ q m T.
    destruct (truncated_division_unique _ _ _ _ _ _ T (trunc_div l r n)) as [-> _].
    apply checked_exact.
Qed.

Lemma mod_char l r :
  in_i32 l -> in_i32 r ->
  (r = 0 -> checked_mod_integer l r = Err EModZero) /\
  (r <> 0 -> forall q m, truncated_division l r q m ->
     (in_i32 q -> checked_mod_integer l r = Ok m /\ in_i32 m) /\
     (~ in_i32 q -> checked_mod_integer l r = Err EUnderflow)).
Proof.
  intros Hl Hr. unfold checked_mod_integer. destruct (Z.eqb_spec r 0).
  - split; intros; [reflexivity|contradiction].
  - split; [contradiction|]. intros _ q m T.
    destruct (truncated_division_unique _ _ _ _ _ _ T (trunc_div l r n)) as [E1 E2]. subst q m.
    rewrite <- is_i32_spec. destruct (is_i32 (Z.quot l r)); split; intros; try congruence.
    split; [reflexivity|]. destruct T as (_ & B & S). unfold in_i32, i32_min, i32_max in *. lia.
Qed.

Lemma in_i32_bits z : in_i32 z <-> Z.shiftr z 31 = 0 \/ Z.shiftr z 31 = -1.
Proof.
  rewrite Z.shiftr_div_pow2 by lia. unfold in_i32, i32_min, i32_max.
  change (2^31) with 2147483648. lia.
Qed.

Lemma bitop_i32 l r :
  in_i32 l -> in_i32 r -> in_i32 (Z.land l r) /\ in_i32 (Z.lor l r) /\ in_i32 (Z.lxor l r).
Proof.
  rewrite !in_i32_bits, Z.shiftr_land, Z.shiftr_lor, Z.shiftr_lxor.
  intros [-> | ->] [-> | ->]; cbn; auto.
Qed.

Lemma wrap_i32_range z : in_i32 (wrap_i32 z).
Proof.
  unfold wrap_i32, in_i32, i32_min, i32_max. change (2^31) with 2147483648.
  change (2^32) with 4294967296. lia.
Qed.

Lemma wrap_i32_mod z : (wrap_i32 z) mod 2 ^ 32 = z mod 2 ^ 32.
Proof.
  unfold wrap_i32. change (2^31) with 2147483648. change (2^32) with 4294967296. lia.
Qed.

Lemma shl_char l r :
  (r < 0 -> checked_shl_integer l r = Err (ENegShl r)) /\
  (0 <= r -> exists v, checked_shl_integer l r = Ok v /\ in_i32 v /\
     v mod 2 ^ 32 = (l * 2 ^ r) mod 2 ^ 32).
Proof.
  unfold checked_shl_integer. destruct (Z.ltb_spec r 0); split; try lia; intros _; [reflexivity|].
  destruct (Z.ltb_spec r 32).
  - exists (wrap_i32 (Z.shiftl l r)). split; [reflexivity|]. split; [apply wrap_i32_range|].
    rewrite wrap_i32_mod, Z.shiftl_mul_pow2 by lia. reflexivity.
  - exists 0. split; [reflexivity|]. split; [unfold in_i32, i32_min, i32_max; lia|].
    replace r with ((r - 32) + 32) by lia. rewrite Z.pow_add_r, Z.mul_assoc, Z.mod_mul by lia.
    reflexivity.
Qed.

Lemma shr_char l r :
  in_i32 l ->
  (r < 0 -> checked_shr_integer l r = Err (ENegShr r)) /\
  (0 <= r -> checked_shr_integer l r = Ok (l / 2 ^ r) /\ in_i32 (l / 2 ^ r)).
Proof.
  intros Hl. unfold checked_shr_integer. destruct (Z.ltb_spec r 0); split; try lia; intros _; [reflexivity|].
  assert (0 < 2 ^ r) by (apply Z.pow_pos_nonneg; lia).
  split.
  - destruct (Z.ltb_spec r 32); [now rewrite Z.shiftr_div_pow2 by lia|].
    assert (2 ^ 32 <= 2 ^ r) by (apply Z.pow_le_mono_r; lia).
    change (2^32) with 4294967296 in *. unfold in_i32, i32_min, i32_max in Hl.
    destruct (Z.ltb_spec l 0); f_equal.
    + apply Z.div_unique with (l + 2 ^ r); lia.
    + symmetry. apply Z.div_small. lia.
  - unfold in_i32, i32_min, i32_max in *.
    split.
    + apply Z.div_le_lower_bound; nia.
    + apply Z.div_le_upper_bound; nia.
Qed.

Lemma pow_char l r :
  (r < 0 -> power_integer l r = Err (ENegExponent r)) /\
  (0 <= r -> exact_or EOverflow (l ^ r) (power_integer l r)).
Proof.
  unfold power_integer. destruct (Z.ltb_spec r 0); split; try lia; intros _; [reflexivity|].
  apply checked_exact.
Qed.

Lemma not_char v : in_i32 v -> in_i32 (not_integer v) /\ not_integer v = - v - 1.
Proof.
  unfold not_integer, Z.lnot, in_i32, i32_min, i32_max. lia.
Qed.


(** Every successful integer operation yields a 32-bit integer. *)
Lemma checked_in e z v : checked e z = Ok v -> in_i32 v.
Proof.
  unfold checked. destruct (is_i32 z) eqn:E; [|discriminate]. intros [= <-]. now apply is_i32_spec.
Qed.

(** * Doubles *)

Lemma digits2_size p : digits2_pos p = Pos.size p.
Proof. induction p; cbn; congruence. Qed.

Lemma digits_bounds p : 2 ^ (Zpos (digits2_pos p) - 1) <= Zpos p < 2 ^ Zpos (digits2_pos p).
Proof.
  rewrite digits2_size. split.
  - pose proof (Pos.size_le p) as H. apply Pos2Z.pos_le_pos in H.
    rewrite Pos2Z.inj_pow in H. rewrite (Pos2Z.inj_xO p) in H.
    assert (2 ^ Zpos (Pos.size p) = 2 * 2 ^ (Zpos (Pos.size p) - 1)).
    { rewrite <- Z.pow_succ_r by lia. f_equal. lia. }
    change (Zpos 2) with 2 in H. lia.
  - pose proof (Pos.size_gt p) as H. apply Pos2Z.pos_lt_pos in H.
    rewrite Pos2Z.inj_pow in H. exact H.
Qed.

Lemma sf_of_pos_char s p : Zpos p < 2 ^ 53 ->
  exists m e, sf_of_pos s p = S754_finite s m e /\ e <= 0 /\ Zpos m = Zpos p * 2 ^ (- e) /\
    2 ^ 52 <= Zpos m < 2 ^ 53 /\ -53 <= e.
Proof.
  intros H. pose proof (digits_bounds p) as [B1 B2]. unfold sf_of_pos.
  set (d := Zpos (digits2_pos p)) in *.
  assert (d <= 53).
  { destruct (Z.le_gt_cases d 53); [assumption|].
    assert (2 ^ 53 <= 2 ^ (d - 1)) by (apply Z.pow_le_mono_r; lia). lia. }
  assert (0 < d) by (unfold d; lia).
  assert (0 < 2 ^ (53 - d)) by (apply Z.pow_pos_nonneg; lia).
  destruct (Zpos p * 2 ^ (53 - d)) as [|m|m] eqn:E; [nia| |nia].
  exists m, (d - 53). split; [reflexivity|]. split; [lia|].
  replace (- (d - 53)) with (53 - d) by lia. split; [lia|]. split; [|lia].
  rewrite <- E. replace 52 with ((d - 1) + (53 - d)) by lia.
  replace (2 ^ 53) with (2 ^ (d + (53 - d))) by (f_equal; lia).
  rewrite !Z.pow_add_r by lia. nia.
Qed.

(** Comparing finite floats with exponents of either sign. *)
Definition sf_num (x : spec_float) : Z * Z :=
  match x with
  | S754_finite s m e => (cond_Zopp s (Zpos m), e)
  | _ => (0, 0)
  end.

(** The value of a canonical integer float. *)
Definition is_int_float (x : spec_float) (z : Z) : Prop :=
  match x with
  | S754_zero _ => z = 0
  | S754_finite s m e =>
      2 ^ 52 <= Zpos m < 2 ^ 53 /\
      (if 0 <=? e then z = cond_Zopp s (Zpos m) * 2 ^ e
       else cond_Zopp s (Zpos m) = z * 2 ^ (- e))
  | _ => False
  end.

Lemma sf_of_Z_int z : Z.abs z < 2 ^ 53 -> is_int_float (sf_of_Z z) z.
Proof.
  intros H. destruct z as [|p|p]; cbn [sf_of_Z].
  - reflexivity.
  - destruct (sf_of_pos_char false p) as (m & e & -> & He & Em & B & B'); [lia|].
    cbn [is_int_float cond_Zopp]. split; [assumption|]. destruct (Z.leb_spec 0 e); [|lia].
    assert (e = 0) as -> by lia. cbn in *. lia.
  - destruct (sf_of_pos_char true p) as (m & e & -> & He & Em & B & B'); [lia|].
    cbn [is_int_float cond_Zopp]. split; [assumption|]. destruct (Z.leb_spec 0 e); [|lia].
    assert (e = 0) as -> by lia. cbn in *. lia.
Qed.

(** Order of two normalised positive floats follows exponents then mantissas. *)
Lemma norm_order m1 e1 m2 e2 k :
  2 ^ 52 <= Zpos m1 < 2 ^ 53 -> 2 ^ 52 <= Zpos m2 < 2 ^ 53 ->
  k <= e1 -> k <= e2 ->
  e1 < e2 -> Zpos m1 * 2 ^ (e1 - k) < Zpos m2 * 2 ^ (e2 - k).
Proof.
  intros B1 B2 K1 K2 L.
  assert (Zpos m1 * 2 ^ (e1 - k) < 2 ^ 53 * 2 ^ (e1 - k)).
  { apply Z.mul_lt_mono_pos_r; [apply Z.pow_pos_nonneg; lia|lia]. }
  assert (2 ^ 53 * 2 ^ (e1 - k) <= 2 ^ 52 * 2 ^ (e2 - k)).
  { rewrite <- !Z.pow_add_r by lia. apply Z.pow_le_mono_r; lia. }
  assert (2 ^ 52 * 2 ^ (e2 - k) <= Zpos m2 * 2 ^ (e2 - k)).
  { apply Z.mul_le_mono_nonneg_r; [apply Z.pow_nonneg; lia|lia]. }
  lia.
Qed.

Lemma int_float_scaled s m e z k : is_int_float (S754_finite s m e) z -> k <= e -> k <= 0 ->
  cond_Zopp s (Zpos m) * 2 ^ (e - k) = z * 2 ^ (- k).
Proof.
  cbn [is_int_float]. intros [_ H] L K. destruct (Z.leb_spec 0 e).
  - subst z. rewrite <- Z.mul_assoc, <- Z.pow_add_r by lia. do 2 f_equal; lia.
  - rewrite H. rewrite <- Z.mul_assoc, <- Z.pow_add_r by lia. do 2 f_equal; lia.
Qed.

Lemma pos_compare_cmp m1 m2 : Pos.compare_cont Eq m1 m2 = Z.compare (Zpos m1) (Zpos m2).
Proof. reflexivity. Qed.

Lemma compare_scaled m1 e1 m2 e2 k :
  2 ^ 52 <= Zpos m1 < 2 ^ 53 -> 2 ^ 52 <= Zpos m2 < 2 ^ 53 -> k <= e1 -> k <= e2 ->
  match Z.compare e1 e2 with
  | Lt => Lt | Gt => Gt | Eq => Pos.compare_cont Eq m1 m2 end
  = Z.compare (Zpos m1 * 2 ^ (e1 - k)) (Zpos m2 * 2 ^ (e2 - k)).
Proof.
  intros B1 B2 K1 K2. destruct (Z.compare_spec e1 e2) as [E|L|L].
  - subst e2. rewrite pos_compare_cmp.
    assert (0 < 2 ^ (e1 - k)) by (apply Z.pow_pos_nonneg; lia).
    symmetry. destruct (Z.compare_spec (Zpos m1) (Zpos m2)).
    + rewrite H0. apply Z.compare_refl.
    + apply Z.compare_lt_iff. nia.
    + apply Z.compare_gt_iff. nia.
  - symmetry. apply Z.compare_lt_iff. now apply norm_order.
  - symmetry. apply Z.compare_gt_iff. now apply norm_order.
Qed.

Lemma scaled_compare z1 z2 k : 0 <= k -> Z.compare (z1 * 2 ^ k) (z2 * 2 ^ k) = Z.compare z1 z2.
Proof.
  intros. rewrite !(Z.mul_comm _ (2 ^ k)). symmetry. apply Zmult_compare_compat_l.
  apply Z.lt_gt. apply Z.pow_pos_nonneg; lia.
Qed.

Lemma int_float_sign s m e z : is_int_float (S754_finite s m e) z -> if s then z < 0 else 0 < z.
Proof.
  intros H. pose proof (int_float_scaled s m e z (Z.min e 0) H ltac:(lia) ltac:(lia)) as E.
  assert (0 < 2 ^ (e - Z.min e 0)) by (apply Z.pow_pos_nonneg; lia).
  assert (0 < 2 ^ (- Z.min e 0)) by (apply Z.pow_pos_nonneg; lia).
  destruct s; cbn [cond_Zopp] in E; nia.
Qed.

Lemma int_float_compare x y a b :
  is_int_float x a -> is_int_float y b -> SFcompare x y = Some (Z.compare a b).
Proof.
  intros Hx Hy. destruct x as [s1|s1| |s1 m1 e1]; try contradiction;
    destruct y as [s2|s2| |s2 m2 e2]; try contradiction.
  - cbn in Hx, Hy. subst. reflexivity.
  - cbn in Hx. subst a. pose proof (int_float_sign _ _ _ _ Hy). cbn [SFcompare].
    destruct s2; f_equal; symmetry; [apply Z.compare_gt_iff|apply Z.compare_lt_iff]; lia.
  - cbn in Hy. subst b. pose proof (int_float_sign _ _ _ _ Hx). cbn [SFcompare].
    destruct s1; f_equal; symmetry; [apply Z.compare_lt_iff|apply Z.compare_gt_iff]; lia.
  - pose proof (int_float_sign _ _ _ _ Hx) as S1. pose proof (int_float_sign _ _ _ _ Hy) as S2.
    set (k := Z.min 0 (Z.min e1 e2)).
    pose proof (int_float_scaled _ _ _ _ k Hx ltac:(lia) ltac:(lia)) as E1.
    pose proof (int_float_scaled _ _ _ _ k Hy ltac:(lia) ltac:(lia)) as E2.
    destruct Hx as [B1 _], Hy as [B2 _].
    rewrite <- (scaled_compare a b (- k)) by lia. rewrite <- E1, <- E2.
    cbn [SFcompare]. destruct s1, s2; cbn [cond_Zopp].
    + f_equal. rewrite !Z.mul_opp_l, Z.compare_opp.
      rewrite <- (compare_scaled m2 e2 m1 e1 k) by (assumption || lia).
      rewrite (Z.compare_antisym e1 e2), (Pos.compare_cont_antisym m1 m2 Eq).
      destruct (e1 ?= e2); cbn; try reflexivity.
    + f_equal. symmetry. apply Z.compare_lt_iff.
      assert (0 < 2 ^ (e1 - k)) by (apply Z.pow_pos_nonneg; lia).
      assert (0 < 2 ^ (e2 - k)) by (apply Z.pow_pos_nonneg; lia). nia.
    + f_equal. symmetry. apply Z.compare_gt_iff.
      assert (0 < 2 ^ (e1 - k)) by (apply Z.pow_pos_nonneg; lia).
      assert (0 < 2 ^ (e2 - k)) by (apply Z.pow_pos_nonneg; lia). nia.
    + f_equal. apply compare_scaled; (assumption || lia).
Qed.

Lemma int_float_leb x y a b :
  is_int_float x a -> is_int_float y b -> SFleb x y = (a <=? b).
Proof.
  intros Hx Hy. unfold SFleb. rewrite (int_float_compare _ _ _ _ Hx Hy). unfold Z.leb.
  destruct (a ?= b); reflexivity.
Qed.

Lemma int_float_as_i32 x z : is_int_float x z -> in_i32 z -> sf_as_i32 x = z.
Proof.
  intros H R. destruct x as [s|s| |s m e]; try contradiction; [cbn in *; congruence|].
  pose proof (int_float_sign _ _ _ _ H) as S.
  cbn [sf_as_i32]. unfold in_i32 in R.
  assert (cond_Zopp s (if 0 <=? e then Zpos m * 2 ^ e else Zpos m / 2 ^ (- e)) = z) as ->; [|lia].
  destruct H as [_ H]. destruct (Z.leb_spec 0 e).
  - subst z. destruct s; cbn [cond_Zopp]; ring.
  - assert (0 < 2 ^ (- e)) by (apply Z.pow_pos_nonneg; lia).
    destruct s; cbn [cond_Zopp] in *.
    + replace (Zpos m) with ((- z) * 2 ^ (- e)) by lia. rewrite Z.div_mul by lia. lia.
    + rewrite H, Z.div_mul by lia. reflexivity.
Qed.

Lemma i32_min_float : is_int_float (sf_of_Z i32_min) i32_min.
Proof. apply sf_of_Z_int. reflexivity. Qed.
Lemma i32_max_float : is_int_float (sf_of_Z i32_max) i32_max.
Proof. apply sf_of_Z_int. reflexivity. Qed.

Lemma int_float_finite x z : is_int_float x z -> sf_is_finite x = true.
Proof. destruct x; cbn; intros; try contradiction; reflexivity. Qed.

(** What conversion does once the rounded value is known. *)
Lemma convert_int x z : is_int_float (sf_round x) z ->
  sf_to_integer x = if is_i32 z then Some z else None.
Proof.
  intros H. unfold sf_to_integer. rewrite (int_float_finite _ _ H).
  rewrite (int_float_leb _ _ _ _ i32_min_float H), (int_float_leb _ _ _ _ H i32_max_float).
  cbn [andb]. unfold is_i32. destruct ((i32_min <=? z) && (z <=? i32_max)) eqn:E; [|reflexivity].
  f_equal. apply int_float_as_i32; [assumption|]. apply is_i32_spec. exact E.
Qed.

(** Shape of decoded doubles. *)
Lemma f64_sf_shape bits :
  match f64_sf bits with
  | S754_finite s m e =>
      (Zpos m < 2 ^ 53) /\ -1074 <= e <= 971 /\ (e <> -1074 -> 2 ^ 52 <= Zpos m)
  | _ => True
  end.
Proof.
  unfold f64_sf.
  assert (M : (N.land bits (2 ^ 52 - 1) < 2 ^ 52)%N).
  { change (2 ^ 52 - 1)%N with (N.ones 52). rewrite N.land_ones. apply N.mod_lt. discriminate. }
  assert (X : (N.land (N.shiftr bits 52) 2047 < 2048)%N).
  { change 2047%N with (N.ones 11). rewrite N.land_ones. change (2^11)%N with 2048%N. apply N.mod_lt. discriminate. }
  revert M X. generalize (N.land bits (2 ^ 52 - 1)) as m. generalize (N.land (N.shiftr bits 52) 2047) as ex.
  intros ex m M X. change (2^52)%N with 4503599627370496%N in *.
  change (2^52) with 4503599627370496. change (2^53) with 9007199254740992.
  destruct (Z.eqb_spec (Z.of_N ex) 2047); [destruct (m =? 0)%N; exact I|].
  destruct (Z.eqb_spec (Z.of_N ex) 0).
  - destruct m as [|p]; [exact I|]. lia.
  - destruct (m + 4503599627370496)%N as [|p] eqn:E; [lia|]. lia.
Qed.

Lemma half_up_bounds m k : 0 < k -> 0 <= m < 2 ^ 53 -> 0 <= (m + 2 ^ (k - 1)) / 2 ^ k <= 2 ^ 52.
Proof.
  intros K B. assert (0 < 2 ^ k) by (apply Z.pow_pos_nonneg; lia).
  assert (E : 2 ^ k = 2 * 2 ^ (k - 1)). { rewrite <- Z.pow_succ_r by lia. f_equal. lia. }
  assert (0 < 2 ^ (k - 1)) by (apply Z.pow_pos_nonneg; lia).
  split; [apply Z.div_pos; lia|].
  apply Z.lt_succ_r. apply Z.div_lt_upper_bound; [lia|].
  change (2^53) with (2 * 2^52) in B. nia.
Qed.

Lemma round_nearest s m k : 0 < k ->
  nearest_away (cond_Zopp s (Zpos m)) (2 ^ k) (cond_Zopp s ((Zpos m + 2 ^ (k - 1)) / 2 ^ k)).
Proof.
  intros K. assert (0 < 2 ^ (k - 1)) by (apply Z.pow_pos_nonneg; lia).
  assert (E : 2 ^ k = 2 * 2 ^ (k - 1)). { rewrite <- Z.pow_succ_r by lia. f_equal. lia. }
  set (h := 2 ^ (k - 1)) in *. rewrite E. clearbody h.
  pose proof (Z.div_mod (Zpos m + h) (2 * h) ltac:(lia)) as D.
  pose proof (Z.mod_pos_bound (Zpos m + h) (2 * h) ltac:(lia)) as R.
  set (q := (Zpos m + h) / (2 * h)) in *. set (r := (Zpos m + h) mod (2 * h)) in *. clearbody q r.
  unfold nearest_away. destruct s; cbn [cond_Zopp].
  - replace (- q * (2 * h) - - Z.pos m) with (r - h) by lia. split; [lia|]. intros T.
    assert (r = 0) by lia. lia.
  - replace (q * (2 * h) - Z.pos m) with (h - r) by lia. split; [lia|]. intros T.
    assert (r = 0) by lia. lia.
Qed.

Lemma nearest_away_unique num den a b : 0 < den ->
  nearest_away num den a -> nearest_away num den b -> a = b.
Proof.
  unfold nearest_away. intros D [A1 A2] [B1 B2].
  assert (Z.abs (a * den - b * den) <= den) by lia.
  replace (a * den - b * den) with ((a - b) * den) in H by ring.
  rewrite Z.abs_mul, (Z.abs_eq den) in H by lia.
  assert (Z.abs (a - b) <= 1).
  { destruct (Z.le_gt_cases (Z.abs (a - b)) 1); [assumption|]. nia. }
  destruct (Z.eq_dec a b); [assumption|exfalso].
  assert (a = b + 1 \/ b = a + 1) as [-> | ->] by lia.
  - replace ((b + 1) * den) with (b * den + den) in * by ring.
    assert (0 <= b * den \/ b * den + den <= 0) by (destruct (Z.le_gt_cases 0 b); [left|right]; nia).
    set (x := b * den) in *. clearbody x. lia.
  - replace ((a + 1) * den) with (a * den + den) in * by ring.
    assert (0 <= a * den \/ a * den + den <= 0) by (destruct (Z.le_gt_cases 0 a); [left|right]; nia).
    set (x := a * den) in *. clearbody x. lia.
Qed.

Lemma nearest_exact z den : 0 < den -> nearest_away (z * den) den z.
Proof. intros. unfold nearest_away. rewrite Z.sub_diag. cbn. lia. Qed.

Lemma round_value bits num den : double_value bits = Some (num, den) ->
  0 < den /\ exists n, nearest_away num den n /\ is_int_float (sf_round (f64_sf bits)) n.
Proof.
  unfold double_value. pose proof (f64_sf_shape bits) as Sh.
  destruct (f64_sf bits) as [s|s| |s m e]; try discriminate.
  - intros [= <- <-]. split; [lia|]. exists 0. split; [apply (nearest_exact 0 1); lia|reflexivity].
  - destruct Sh as (M & EE & N).
    assert (CV : (if s then Z.neg m else Z.pos m) = cond_Zopp s (Zpos m)) by (destruct s; reflexivity).
    rewrite CV. cbn [sf_round]. destruct (Z.leb_spec 0 e).
    + intros [= <- <-]. split; [lia|]. exists (cond_Zopp s (Zpos m) * 2 ^ e). split.
      * rewrite <- (Z.mul_1_r (_ * _)) at 1. apply nearest_exact; lia.
      * cbn [is_int_float]. destruct (Z.leb_spec 0 e); [|lia]. split; [|reflexivity].
        split; [apply N; lia|assumption].
    + intros [= <- <-].
      assert (0 < 2 ^ (- e)) by (apply Z.pow_pos_nonneg; lia). split; [assumption|].
      exists (cond_Zopp s ((Zpos m + 2 ^ (- e - 1)) / 2 ^ (- e))). split.
      * apply round_nearest. lia.
      * pose proof (half_up_bounds (Zpos m) (- e) ltac:(lia) ltac:(lia)) as B.
        destruct ((Zpos m + 2 ^ (- e - 1)) / 2 ^ (- e)) as [|q|q] eqn:Q; [|  |lia].
        -- destruct s; reflexivity.
        -- assert (Zpos q < 2 ^ 53) by (change (2^53) with (2 * 2^52); lia).
           destruct s; [apply (sf_of_Z_int (Zneg q))|apply (sf_of_Z_int (Zpos q))]; cbn; lia.
Qed.

Lemma double_to_integer_char bits :
  match double_value bits with
  | None => double_to_integer bits = None
  | Some (num, den) =>
      0 < den /\
      exists n, nearest_away num den n /\ (forall n', nearest_away num den n' -> n' = n) /\
        (in_i32 n -> double_to_integer bits = Some n) /\
        (~ in_i32 n -> double_to_integer bits = None)
  end.
Proof.
  destruct (double_value bits) as [[num den]|] eqn:V.
  - destruct (round_value _ _ _ V) as (D & n & Nr & F). split; [assumption|]. exists n.
    split; [assumption|]. split; [intros; eapply nearest_away_unique; eassumption|].
    unfold double_to_integer. rewrite (convert_int _ _ F). rewrite <- is_i32_spec.
    destruct (is_i32 n); split; intros; congruence.
  - unfold double_value in V. unfold double_to_integer, sf_to_integer.
    destruct (f64_sf bits) as [s|s| |s m e]; try discriminate; try reflexivity.
    destruct (0 <=? e); discriminate.
Qed.

(** Decoding what was encoded. *)
Lemma f64_decode_parts s ex m : (ex < 2048)%N -> (m < 2 ^ 52)%N ->
  let bits := (sign_bit s + (ex * 2 ^ 52 + m))%N in
  N.testbit bits 63 = s /\ N.land (N.shiftr bits 52) 2047 = ex /\ N.land bits (2 ^ 52 - 1) = m.
Proof.
  intros HE HM. cbv zeta. change (2 ^ 52 - 1)%N with (N.ones 52). change 2047%N with (N.ones 11).
  rewrite !N.land_ones, N.shiftr_div_pow2.
  change (2^52)%N with 4503599627370496%N in *. change (2^11)%N with 2048%N.
  assert (S : sign_bit s = (N.b2n s * 9223372036854775808)%N) by (destruct s; reflexivity).
  rewrite S.
  assert (H63 : N.testbit (N.b2n s * 9223372036854775808 + (ex * 4503599627370496 + m)) 63 = s).
  { rewrite N.testbit_odd, N.shiftr_div_pow2. change (2^63)%N with 9223372036854775808%N.
    rewrite N.add_comm, N.div_add by lia. rewrite N.div_small by lia. destruct s; reflexivity. }
  split; [assumption|]. destruct s; cbn [N.b2n]; split.
  - replace ((1 * 9223372036854775808 + (ex * 4503599627370496 + m)))%N
      with (m + (2048 + ex) * 4503599627370496)%N by lia.
    rewrite N.div_add, N.div_small by lia. lia.
  - replace ((1 * 9223372036854775808 + (ex * 4503599627370496 + m)))%N
      with (m + (2048 + ex) * 4503599627370496)%N by lia.
    rewrite N.mod_add, N.mod_small by lia. reflexivity.
  - replace ((0 * 9223372036854775808 + (ex * 4503599627370496 + m)))%N
      with (m + ex * 4503599627370496)%N by lia.
    rewrite N.div_add, N.div_small by lia. rewrite N.mod_small by lia. lia.
  - replace ((0 * 9223372036854775808 + (ex * 4503599627370496 + m)))%N
      with (m + ex * 4503599627370496)%N by lia.
    rewrite N.mod_add, N.mod_small by lia. reflexivity.
Qed.

(** Floats that have a bit pattern of their own. *)
Definition representable (x : spec_float) : Prop :=
  match x with
  | S754_finite _ m e => Zpos m < 2 ^ 53 /\ -1074 <= e <= 971 /\ (e <> -1074 -> 2 ^ 52 <= Zpos m)
  | _ => True
  end.

Lemma f64_sf_bits x : representable x -> f64_sf (f64_bits x) = x.
Proof.
  destruct x as [s|s| |s m e]; cbn [representable f64_bits].
  - intros _. destruct s; reflexivity.
  - intros _. destruct s; reflexivity.
  - intros _. reflexivity.
  - change (2^53) with 9007199254740992. change (2^52) with 4503599627370496.
    intros (M & E & N). unfold f64_sf.
    destruct (N.ltb_spec (Npos m) (2 ^ 52)).
    + change (2^52)%N with 4503599627370496%N in *.
      assert (e = -1074) by lia. subst e.
      pose proof (f64_decode_parts s 0 (Npos m) ltac:(lia) ltac:(change (2^52)%N with 4503599627370496%N; lia)) as (A & B & C).
      change (2^52)%N with 4503599627370496%N in *.
      rewrite N.mul_0_l, N.add_0_l in A, B, C. rewrite A, B, C. reflexivity.
    + change (2^52)%N with 4503599627370496%N in *.
      pose proof (f64_decode_parts s (Z.to_N (e + 1075)) (Npos m - 4503599627370496) ltac:(lia) ltac:(change (2^52)%N with 4503599627370496%N; lia)) as (A & B & C).
      change (2^52)%N with 4503599627370496%N in *.
      rewrite A, B, C. rewrite Z2N.id by lia.
      destruct (Z.eqb_spec (e + 1075) 2047); [lia|]. destruct (Z.eqb_spec (e + 1075) 0); [lia|].
      replace (Npos m - 4503599627370496 + 4503599627370496)%N with (Npos m) by lia.
      f_equal. lia.
Qed.

Lemma f64_of_i32_value z : in_i32 z ->
  exists num den, double_value (f64_of_i32 z) = Some (num, den) /\ 0 < den /\ num = z * den.
Proof.
  intros H. unfold in_i32, i32_min, i32_max in H. unfold double_value, f64_of_i32.
  assert (P : forall s p, Zpos p <= 2147483648 ->
     exists m e, sf_of_pos s p = S754_finite s m e /\ f64_sf (f64_bits (sf_of_pos s p)) = S754_finite s m e /\
       e < 0 /\ Zpos m = Zpos p * 2 ^ (- e)).
  { intros s p L. destruct (sf_of_pos_char s p) as (m & e & E & He & Em & B & B').
    { change (2^53) with 9007199254740992. lia. }
    exists m, e. split; [assumption|]. split.
    - rewrite E. apply f64_sf_bits. cbn. change (2^52) with 4503599627370496 in *.
      change (2^53) with 9007199254740992 in *. lia.
    - split; [|assumption]. destruct (Z.eq_dec e 0); [|lia]. subst e. cbn in Em.
      change (2^52) with 4503599627370496 in *. lia. }
  destruct z as [|p|p]; cbn [sf_of_Z].
  - exists 0, 1. repeat split; lia.
  - destruct (P false p ltac:(lia)) as (m & e & _ & -> & L & Em).
    destruct (Z.leb_spec 0 e); [lia|]. exists (Zpos m), (2 ^ (- e)).
    repeat split; [apply Z.pow_pos_nonneg; lia|lia].
  - destruct (P true p ltac:(lia)) as (m & e & _ & -> & L & Em).
    destruct (Z.leb_spec 0 e); [lia|]. exists (Zneg m), (2 ^ (- e)).
    repeat split; [apply Z.pow_pos_nonneg; lia|lia].
Qed.

Lemma i32_double_roundtrip z : in_i32 z -> double_to_integer (f64_of_i32 z) = Some z.
Proof.
  intros H. destruct (f64_of_i32_value z H) as (num & den & V & D & ->).
  pose proof (double_to_integer_char (f64_of_i32 z)) as C. rewrite V in C.
  destruct C as (_ & n & Nr & U & Hi & _).
  assert (z = n) as <- by (apply U, nearest_exact; assumption). auto.
Qed.

(** INT *)
Lemma floor_value bits num den : double_value bits = Some (num, den) ->
  is_int_float (sf_floor (f64_sf bits)) (num / den) /\ floor_of num den (num / den).
Proof.
  unfold double_value. pose proof (f64_sf_shape bits) as Sh.
  destruct (f64_sf bits) as [s|s| |s m e]; try discriminate.
  - intros [= <- <-]. split; [reflexivity|]. unfold floor_of. lia.
  - destruct Sh as (M & EE & N).
    assert (CV : (if s then Z.neg m else Z.pos m) = cond_Zopp s (Zpos m)) by (destruct s; reflexivity).
    rewrite CV. cbn [sf_floor]. destruct (Z.leb_spec 0 e).
    + intros [= <- <-]. rewrite Z.div_1_r. split; [|unfold floor_of; lia].
      cbn [is_int_float]. destruct (Z.leb_spec 0 e); [|lia]. split; [|reflexivity].
      split; [apply N; lia|assumption].
    + intros [= <- <-].
      assert (0 < 2 ^ (- e)) by (apply Z.pow_pos_nonneg; lia).
      split.
      * assert (B : Z.abs (cond_Zopp s (Zpos m) / 2 ^ (- e)) < 2 ^ 53).
        { assert (2 <= 2 ^ (- e)). { change 2 with (2 ^ 1) at 1. apply Z.pow_le_mono_r; lia. }
          change (2^53) with 9007199254740992 in *.
          pose proof (Z.div_mod (cond_Zopp s (Zpos m)) (2 ^ (- e)) ltac:(lia)) as D.
          pose proof (Z.mod_pos_bound (cond_Zopp s (Zpos m)) (2 ^ (- e)) ltac:(lia)) as R.
          set (q := cond_Zopp s (Zpos m) / 2 ^ (- e)) in *. destruct s; cbn [cond_Zopp] in *; nia. }
        pose proof (sf_of_Z_int _ B) as F.
        destruct (cond_Zopp s (Zpos m) / 2 ^ (- e)) as [|q|q] eqn:Q; [|exact F|exact F].
        destruct s; reflexivity.
      * unfold floor_of. pose proof (Z.div_mod (cond_Zopp s (Zpos m)) (2 ^ (- e)) ltac:(lia)) as D.
        pose proof (Z.mod_pos_bound (cond_Zopp s (Zpos m)) (2 ^ (- e)) ltac:(lia)) as R. nia.
Qed.

(** Rounding leaves integer floats alone. *)
Lemma round_int x z : is_int_float x z -> is_int_float (sf_round x) z.
Proof.
  destruct x as [s|s| |s m e]; try contradiction; [auto|].
  intros H. cbn [sf_round]. destruct (Z.leb_spec 0 e); [assumption|].
  pose proof H as [B E]. destruct (Z.leb_spec 0 e); [lia|].
  assert (0 < 2 ^ (- e - 1)) by (apply Z.pow_pos_nonneg; lia).
  assert (EE : 2 ^ (- e) = 2 * 2 ^ (- e - 1)). { rewrite <- Z.pow_succ_r by lia. f_equal. lia. }
  pose proof (int_float_sign _ _ _ _ H) as S.
  assert (Q : (Zpos m + 2 ^ (- e - 1)) / 2 ^ (- e) = Z.abs z).
  { assert (Zpos m = Z.abs z * 2 ^ (- e)) as -> by (destruct s; cbn [cond_Zopp] in E; lia).
    symmetry. apply Z.div_unique with (2 ^ (- e - 1)); lia. }
  rewrite Q. assert (Z.abs z < 2 ^ 53). { destruct s; cbn [cond_Zopp] in E; nia. }
  destruct s.
  - destruct z as [|q|q]; cbn [Z.abs]; [lia|lia|]. apply (sf_of_Z_int (Zneg q)). assumption.
  - destruct z as [|q|q]; cbn [Z.abs]; [lia| |lia]. apply (sf_of_Z_int (Zpos q)). assumption.
Qed.

Lemma int_function_char bits :
  match double_value bits with
  | None => int_function bits = None
  | Some (num, den) =>
      exists n, floor_of num den n /\
        (in_i32 n -> int_function bits = Some n) /\ (~ in_i32 n -> int_function bits = None)
  end.
Proof.
  destruct (double_value bits) as [[num den]|] eqn:V.
  - destruct (floor_value _ _ _ V) as [F Fl]. exists (num / den). split; [assumption|].
    unfold int_function. rewrite (convert_int _ _ (round_int _ _ F)). rewrite <- is_i32_spec.
    destruct (is_i32 (num / den)); split; intros; congruence.
  - unfold double_value in V. unfold int_function, sf_to_integer.
    destruct (f64_sf bits) as [s|s| |s m e]; try discriminate; try reflexivity.
    destruct (0 <=? e); discriminate.
Qed.

(** Encoding what was decoded: every pattern but the NaNs. *)
Lemma f64_bits_sf bits : (bits < 2 ^ 64)%N -> f64_sf bits <> S754_nan -> f64_bits (f64_sf bits) = bits.
Proof.
  intros HB. 
  assert (Sg : N.testbit bits 63 = (9223372036854775808 <=? bits)%N).
  { rewrite N.testbit_odd, N.shiftr_div_pow2. change (2^63)%N with 9223372036854775808%N.
    change (2^64)%N with 18446744073709551616%N in HB.
    destruct (N.leb_spec 9223372036854775808 bits).
    - replace (bits / 9223372036854775808)%N with 1%N by lia. reflexivity.
    - rewrite N.div_small by lia. reflexivity. }
  unfold f64_sf. rewrite Sg.
  change (2 ^ 52 - 1)%N with (N.ones 52). change 2047%N with (N.ones 11).
  rewrite !N.land_ones, N.shiftr_div_pow2.
  change (2^64)%N with 18446744073709551616%N in HB.
  change (2^52)%N with 4503599627370496%N. change (2^11)%N with 2048%N.
  assert (SB : forall b, sign_bit b = (if b then 9223372036854775808 else 0)%N) by (intros []; reflexivity).
  set (m := (bits mod 4503599627370496)%N). set (ex := (bits / 4503599627370496 mod 2048)%N).
  assert (R : (bits = (if 9223372036854775808 <=? bits then 9223372036854775808 else 0) + ex * 4503599627370496 + m)%N).
  { unfold ex, m. destruct (N.leb_spec 9223372036854775808 bits); lia. }
  assert (M : (m < 4503599627370496)%N) by (unfold m; lia).
  assert (X : (ex < 2048)%N) by (unfold ex; lia).
  clearbody m ex.
  destruct (Z.eqb_spec (Z.of_N ex) 2047).
  - destruct (N.eqb_spec m 0); [|congruence]. intros _. cbn [f64_bits]. rewrite SB. lia.
  - destruct (Z.eqb_spec (Z.of_N ex) 0).
    + destruct m as [|p]; intros _; cbn [f64_bits]; rewrite SB; [lia|].
      change (2^52)%N with 4503599627370496%N. destruct (N.ltb_spec (Npos p) 4503599627370496); lia.
    + destruct (m + 4503599627370496)%N as [|p] eqn:E; [lia|]. intros _. cbn [f64_bits]. rewrite SB.
      change (2^52)%N with 4503599627370496%N. destruct (N.ltb_spec (Npos p) 4503599627370496); lia.
Qed.
