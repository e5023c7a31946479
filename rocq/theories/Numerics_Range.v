(** Random numbers are between 0 and 1. *)
From Verif Require Import Base Num_Model Num_Proofs Numerics_Model Numerics_Proofs.
Local Open Scope Z_scope.

Lemma digits_are p d : 0 < d -> 2 ^ (d - 1) <= Zpos p < 2 ^ d -> Zdigits2 (Zpos p) = d.
Proof.
  intros D [A B]. cbn [Zdigits2]. pose proof (digits_bounds p) as [A' B']. set (x := Zpos (digits2_pos p)) in *. assert (0 < x) by (unfold x; lia). clearbody x.
  destruct (Z.lt_trichotomy x d) as [L|[L|L]]; [|exact L|].
  - pose proof (Z.pow_le_mono_r 2 x (d - 1) ltac:(lia) ltac:(lia)). lia.
  - pose proof (Z.pow_le_mono_r 2 d (x - 1) ltac:(lia) ltac:(lia)). lia.
Qed.
Lemma fexp_is d e : -1000 <= e <= 0 -> 53 <= d <= 54 -> fexp 53 1024 (d + e) = d + e - 53.
Proof. intros E D. unfold fexp, emin. lia. Qed.
Lemma location_kept m l : shr_m (shr_record_of_loc m l) = m /\ loc_of_shr_record (shr_record_of_loc m l) = l.
Proof. destruct l as [|[]]; split; reflexivity. Qed.
Lemma shr_halves m r s : 0 < m -> shr_m (shr_1 {| shr_m := m; shr_r := r; shr_s := s |}) = m / 2.
Proof.
  intros M. destruct m as [|p|p]; [lia| |lia]. destruct p as [p|p|]; cbn [shr_1 shr_m].
  - change (Zpos p~1) with (2 * Zpos p + 1). apply Z.div_unique with 1; lia.
  - change (Zpos p~0) with (2 * Zpos p). apply Z.div_unique with 0; lia.
  - reflexivity.
Qed.
Lemma nearest_step m l : m <= round_nearest_even m l <= m + 1.
Proof. destruct l as [|[]]; cbn [round_nearest_even]; try lia. destruct (Z.even m); lia. Qed.

Lemma finish_round n e : 2 ^ 52 <= n <= 2 ^ 53 -> -1000 <= e <= 0 ->
  exists m e', (let '(mrs, e'') := shr_fexp 53 1024 n e loc_Exact in
    match shr_m mrs with
    | Z0 => S754_zero false
    | Zpos m => if Zle_bool e'' (1024 - 53) then S754_finite false m e'' else S754_infinity false
    | Zneg _ => S754_nan
    end) = S754_finite false m e' /\ 2 ^ 52 <= Zpos m < 2 ^ 53 /\ (e' = e \/ n = 2 ^ 53 /\ e' = e + 1 /\ Zpos m = 2 ^ 52).
Proof.
  intros B E. destruct n as [|p|p]; [change (2 ^ 52) with 4503599627370496 in B; lia| |change (2 ^ 52) with 4503599627370496 in B; lia].
  destruct (Z.eq_dec (Zpos p) (2 ^ 53)) as [P|P].
  - rewrite P. unfold shr_fexp. replace (Zdigits2 (2 ^ 53)) with 54 by reflexivity. rewrite (fexp_is 54 e E) by lia.
    replace (54 + e - 53 - e) with 1 by lia. cbn [shr iter_pos shr_record_of_loc]. exists (2 ^ 52)%positive, (e + 1).
    replace (shr_m (shr_1 {| shr_m := 2 ^ 53; shr_r := false; shr_s := false |})) with (Zpos (2 ^ 52)) by (vm_compute; reflexivity).
    destruct (Z.leb_spec (e + 1) (1024 - 53)); [|lia]. split; [reflexivity|]. split; [split; [vm_compute; discriminate|reflexivity]|]. right. split; [reflexivity|]. split; reflexivity.
  - assert (D : Zdigits2 (Zpos p) = 53) by (apply digits_are; [reflexivity|change (53 - 1) with 52; lia]).
    unfold shr_fexp. rewrite D, (fexp_is 53 e E) by lia. replace (53 + e - 53 - e) with 0 by lia. cbn [shr shr_record_of_loc shr_m].
    destruct (Z.leb_spec e (1024 - 53)); [|lia]. exists p, e. split; [reflexivity|]. split; [lia|]. left. reflexivity.
Qed.
Lemma round_small q e l : 2 ^ 52 <= q < 2 ^ 54 - 2 -> -900 <= e < 0 ->
  exists m e', binary_round_aux 53 1024 false q e l = S754_finite false m e' /\ 2 ^ 52 <= Zpos m < 2 ^ 53 /\ e <= e' <= e + 1 + 1 /\
    (q < 2 ^ 53 -> e' = e \/ e' = e + 1 /\ Zpos m = 2 ^ 52) /\ (q < 2 ^ 54 - 2 -> q / 2 + 1 < 2 ^ 53 -> e' <= e + 1).
Proof.
  intros B E. assert (Q0 : 0 < q) by (change (2 ^ 52) with 4503599627370496 in B; lia). unfold binary_round_aux.
  destruct (Z.lt_ge_cases q (2 ^ 53)) as [L|L].
  - assert (S0 : shr_fexp 53 1024 q e l = (shr_record_of_loc q l, e)).
    { unfold shr_fexp. destruct q as [|p|p]; [lia| |lia]. rewrite (digits_are p 53) by (try reflexivity; change (53 - 1) with 52; lia).
      rewrite (fexp_is 53 e) by lia. replace (53 + e - 53 - e) with 0 by lia. reflexivity. }
    rewrite S0. destruct (location_kept q l) as [E1 E2]. rewrite E1, E2. pose proof (nearest_step q l) as NS.
    destruct (finish_round (round_nearest_even q l) e) as (m & e' & F & BM & EE); [lia|lia|]. exists m, e'. split; [exact F|]. split; [exact BM|].
    split; [lia|]. split; [intros _; destruct EE as [EE|(_ & EE & EM)]; [left; exact EE|right; split; assumption]|]. intros _ _. lia.
  - assert (S0 : exists mrs, shr_fexp 53 1024 q e l = (mrs, e + 1) /\ shr_m mrs = q / 2).
    { unfold shr_fexp. destruct q as [|p|p]; [lia| |lia]. rewrite (digits_are p 54) by (try reflexivity; change (54 - 1) with 53; lia).
      rewrite (fexp_is 54 e) by lia. replace (54 + e - 53 - e) with 1 by lia. cbn [shr iter_pos]. eexists. split; [reflexivity|].
      destruct (shr_record_of_loc (Z.pos p) l) as [m r s] eqn:SR. destruct (location_kept (Zpos p) l) as [E1 _]. rewrite SR in E1. cbn [shr_m] in E1. subst m.
      apply shr_halves. lia. }
    destruct S0 as (mrs & S0 & SM). rewrite S0, SM. pose proof (nearest_step (q / 2) (loc_of_shr_record mrs)) as NS.
    assert (HB : 2 ^ 52 <= q / 2 < 2 ^ 53 - 1).
    { change (2 ^ 54) with (2 * 2 ^ 53) in B. change (2 ^ 53) with (2 * 2 ^ 52) in *. split; [apply Z.div_le_lower_bound; lia|apply Z.div_lt_upper_bound; lia]. }
    destruct (finish_round (round_nearest_even (q / 2) (loc_of_shr_record mrs)) (e + 1)) as (m & e' & F & BM & EE); [lia|lia|]. exists m, e'. split; [exact F|]. split; [exact BM|].
    split; [lia|]. split; [lia|]. intros _ HQ. destruct EE as [EE|(EN & _ & _)]; lia.
Qed.

Lemma random_range n : (n < 2 ^ 32)%N ->
  f64_le 0 (f64_div (f64_of_u32 n) f64_u32_max) = true /\ f64_le (f64_div (f64_of_u32 n) f64_u32_max) f64_one = true.
Proof.
  intros LT. destruct n as [|p]; [split; vm_compute; reflexivity|].
  destruct (Pos.eq_dec p 4294967295) as [->|NP]; [split; vm_compute; reflexivity|].
  assert (PL : Zpos p < 4294967295) by (change (2 ^ 32)%N with 4294967296%N in LT; lia). clear LT NP.
  pose (m2 := 9007199252643840%positive).
  assert (S2 : f64_sf f64_u32_max = S754_finite false m2 (-21)) by (vm_compute; reflexivity).
  destruct (sf_of_pos_char false p) as (m & e & S1 & He & Em & B & B'); [change (2 ^ 53) with 9007199254740992; lia|].
  assert (E1 : e <= -21).
  { destruct (Z.le_gt_cases e (-21)) as [L|L]; [exact L|]. exfalso. assert (2 ^ (- e) <= 2 ^ 20) by (apply Z.pow_le_mono_r; lia).
    change (2 ^ 52) with 4503599627370496 in B. change (2 ^ 20) with 1048576 in *. nia. }
  assert (R1 : representable (S754_finite false m e)).
  { cbn [representable]. split; [apply B|]. split; [lia|]. intros _. apply B. }
  assert (F1 : f64_sf (f64_of_u32 (Npos p)) = S754_finite false m e).
  { unfold f64_of_u32. cbn [Z.of_N sf_of_Z]. rewrite S1. apply f64_sf_bits, R1. }
  pose (q := Zpos m * 2 ^ 53 / Zpos m2).
  assert (QB : 2 ^ 52 <= q < 2 ^ 54 - 2 /\ q / 2 + 1 < 2 ^ 53 /\ (e = -21 -> q < 2 ^ 53)).
  { unfold q, m2. clear -B Em PL. change (2 ^ 52) with 4503599627370496 in *. change (2 ^ 53) with 9007199254740992 in *. change (2 ^ 54) with 18014398509481984.
    assert (Q1 : 4503599627370496 <= Z.pos m * 9007199254740992 / 9007199252643840) by (apply Z.div_le_lower_bound; lia).
    assert (Q2 : Z.pos m * 9007199254740992 / 9007199252643840 < 9007199254740992 + 4194304) by (apply Z.div_lt_upper_bound; lia).
    split; [lia|]. split.
    - assert (Z.pos m * 9007199254740992 / 9007199252643840 / 2 < 4503599627370496 + 4194304) by (apply Z.div_lt_upper_bound; lia). lia.
    - intros ->. change (2 ^ (- -21)) with 2097152 in Em. apply Z.div_lt_upper_bound; lia. }
  destruct QB as (QB & QH & QK).
  assert (SD : exists l, SFdiv 53 1024 (S754_finite false m e) (S754_finite false m2 (-21)) = binary_round_aux 53 1024 false q (e + 21 - 53) l).
  { cbn [SFdiv xorb]. unfold SFdiv_core_binary. rewrite (digits_are m 53) by (try reflexivity; change (53 - 1) with 52; exact B).
    rewrite (digits_are m2 53) by (first [reflexivity | split; vm_compute; first [discriminate | reflexivity]]).
    replace (53 + e - (53 + -21)) with (e + 21) by lia. assert (FE : fexp 53 1024 (e + 21) = e + 21 - 53) by (unfold fexp, emin; lia). rewrite FE.
    rewrite Z.min_l by lia. replace (e - -21 - (e + 21 - 53)) with 53 by lia. rewrite Z.shiftl_mul_pow2 by lia.
    unfold q, Z.div. destruct (Z.div_eucl (Z.pos m * 2 ^ 53) (Z.pos m2)) as [q' r]. eexists. reflexivity. }
  destruct SD as [l SD]. destruct (round_small q (e + 21 - 53) l QB) as (m' & e' & F & BM & EE & EK & EH); [lia|].
  assert (RR : f64_sf (f64_div (f64_of_u32 (N.pos p)) f64_u32_max) = S754_finite false m' e').
  { unfold f64_div. change prec with 53. change emax with 1024. rewrite F1, S2, SD, F. apply f64_sf_bits. cbn [representable]. split; [apply BM|]. split; [lia|]. intros _. apply BM. }
  unfold f64_le, SFleb. rewrite RR. assert (O1 : f64_sf f64_one = S754_finite false 4503599627370496 (-52)) by (vm_compute; reflexivity). rewrite O1.
  assert (O0 : f64_sf 0 = S754_zero false) by reflexivity. rewrite O0. cbn [SFcompare]. split; [reflexivity|].
  specialize (EH (proj2 QB) QH). destruct (Z.compare_spec e' (-52)) as [->|L|L]; [|reflexivity|].
  - assert (e = -21) by lia. destruct (EK (QK H)) as [X|[_ X]]; [lia|]. injection X as ->. reflexivity.
  - exfalso. destruct (Z.eq_dec e (-21)) as [X|X]; [destruct (EK (QK X)) as [Y|[Y _]]; lia|]. lia.
Qed.
