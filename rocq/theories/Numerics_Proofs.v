(** The numerical functions and commands do what they are to do. *)
From Coq Require Import String.
From Verif Require Import Base Bytecode_Model Mem_Model Num_Model Num_Spec Num_Proofs Vm_Model Ast_Model Syms_Model Call_Spec Cmds_Model Cmds_Spec
  Lib_Model Lib_Spec Numerics_Model Numerics_Spec.
Local Open Scope string_scope.
Local Open Scope list_scope.
Local Open Scope Z_scope.

(** ** The order of doubles *)

Lemma sf_representable x : representable (f64_sf x).
Proof. exact (f64_sf_shape x). Qed.

(** An integer that grows with the double. *)
Definition key (x : spec_float) : Z :=
  match x with
  | S754_zero _ => 0
  | S754_finite s m e => cond_Zopp s ((e + 1075) * 2 ^ 54 + Zpos m)
  | S754_infinity s => cond_Zopp s (2 ^ 70)
  | S754_nan => 0
  end.
Lemma key_compare x y : representable x -> representable y -> x <> S754_nan -> y <> S754_nan ->
  SFcompare x y = Some (key x ?= key y).
Proof.
  assert (P54 : 2 ^ 54 = 18014398509481984) by reflexivity. assert (P70 : 2 ^ 70 = 1180591620717411303424) by reflexivity.
  assert (P53 : 2 ^ 53 = 9007199254740992) by reflexivity.
  destruct x as [sx|sx| |sx mx ex], y as [sy|sy| |sy my ey]; intros RX RY NX NY; try congruence; cbn [SFcompare key representable] in *.
  all: rewrite ?P54, ?P70, ?P53 in *.
  - reflexivity.
  - destruct sy; reflexivity.
  - f_equal. symmetry. destruct sy; cbn [cond_Zopp]; [apply Z.compare_gt_iff|apply Z.compare_lt_iff]; lia.
  - destruct sx; reflexivity.
  - destruct sx, sy; reflexivity.
  - f_equal. symmetry. destruct sx, sy; cbn [cond_Zopp]; first [apply Z.compare_gt_iff; lia|apply Z.compare_lt_iff; lia].
  - f_equal. symmetry. destruct sx; cbn [cond_Zopp]; [apply Z.compare_lt_iff|apply Z.compare_gt_iff]; lia.
  - f_equal. symmetry. destruct sx, sy; cbn [cond_Zopp]; first [apply Z.compare_gt_iff; lia|apply Z.compare_lt_iff; lia].
  - destruct RX as (MX & EX & _), RY as (MY & EY & _). destruct sx, sy; cbn [cond_Zopp].
    + destruct (Z.compare_spec ex ey) as [->|L|L]; f_equal; symmetry.
      * rewrite pos_compare_cmp.
        destruct (Z.compare_spec (Z.pos mx) (Z.pos my)); cbn [CompOpp];
          destruct (Z.compare_spec (- ((ey + 1075) * 18014398509481984 + Z.pos mx)) (- ((ey + 1075) * 18014398509481984 + Z.pos my))); try reflexivity; lia.
      * apply Z.compare_gt_iff. lia.
      * apply Z.compare_lt_iff. lia.
    + f_equal. symmetry. apply Z.compare_lt_iff. lia.
    + f_equal. symmetry. apply Z.compare_gt_iff. lia.
    + destruct (Z.compare_spec ex ey) as [->|L|L]; f_equal; symmetry.
      * rewrite pos_compare_cmp.
        destruct (Z.compare_spec (Z.pos mx) (Z.pos my)); destruct (Z.compare_spec ((ey + 1075) * 18014398509481984 + Z.pos mx) ((ey + 1075) * 18014398509481984 + Z.pos my)); try reflexivity; lia.
      * apply Z.compare_lt_iff. lia.
      * apply Z.compare_gt_iff. lia.
Qed.

Lemma nan_dec a : is_nan a \/ ~ is_nan a.
Proof. unfold is_nan. generalize (f64_sf a). intros x. destruct x; [right; discriminate|right; discriminate|left; reflexivity|right; discriminate]. Qed.
Lemma lt_key a b : f64_lt a b = true <-> ~ is_nan a /\ ~ is_nan b /\ key (f64_sf a) < key (f64_sf b).
Proof.
  unfold f64_lt, SFltb, is_nan. pose proof (sf_representable a) as RA. pose proof (sf_representable b) as RB.
  destruct (nan_dec a) as [NA|NA]; unfold is_nan in NA; [rewrite NA; cbn [SFcompare]; split; [discriminate|intros [Z _]; destruct Z; reflexivity]|].
  destruct (nan_dec b) as [NB|NB]; unfold is_nan in NB.
  - rewrite NB. clear RA RB. destruct (f64_sf a); cbn [SFcompare]; (split; [discriminate|intros (_ & Z & _); destruct Z; reflexivity]).
  - rewrite (key_compare _ _ RA RB NA NB). clear RA RB.
    destruct (Z.compare_spec (key (f64_sf a)) (key (f64_sf b))) as [L|L|L]; split; intros H0; try discriminate H0; try (exfalso; lia); try reflexivity.
    split; [exact NA|]. split; [exact NB|exact L].
Qed.

Ltac by_keys := repeat match goal with H : _ /\ _ |- _ => destruct H end; repeat split; try assumption; lia.

(** ** MAX and MIN *)

Section Folds.
Variable less : N -> N -> bool.
Hypothesis less_trans : forall a b c, less a b = true -> less b c = true -> less a c = true.
Hypothesis not_less : forall a b c, less a b = false -> ~ is_nan a -> less a c = true -> is_nan b \/ less b c = true.
Hypothesis less_number : forall a b, less a b = true -> ~ is_nan b.
Definition best (start : N) (l : list N) (y : N) : Prop := exists l1 l2, start :: l = l1 ++ y :: l2 /\
  (forall x, In x l1 -> is_nan x \/ less x y = true) /\ (forall x, In x l2 -> less y x = false).
Lemma fold_best l : forall start, ~ is_nan start -> best start l (fold_left (fun m n => if less m n then n else m) l start).
Proof.
  intros start NS. pattern l. apply rev_ind; clear l.
  - exists [], []. cbn. split; [reflexivity|]. split; intros x [].
  - intros n l (l1 & l2 & E & A & B). rewrite fold_left_app. cbn [fold_left]. set (y := fold_left _ l start) in *.
    assert (NY : ~ is_nan y).
    { unfold y. clear -NS less_number. revert start NS. induction l as [|a l IH]; intros start NS; [exact NS|]. cbn [fold_left]. apply IH.
      destruct (less start a) eqn:L; [exact (less_number _ _ L)|exact NS]. }
    destruct (less y n) eqn:L.
    + exists (l1 ++ y :: l2), []. rewrite app_comm_cons, E. rewrite <- !app_assoc. split; [reflexivity|]. split; [|intros x []].
      intros x I0. apply in_app_or in I0. destruct I0 as [I0|[<-|I0]].
      * destruct (A x I0) as [Z|Z]; [left; exact Z|right; exact (less_trans _ _ _ Z L)].
      * right. exact L.
      * exact (not_less _ _ _ (B x I0) NY L).
    + exists l1, (l2 ++ [n]). rewrite app_comm_cons, E, <- app_assoc. split; [reflexivity|]. split; [exact A|].
      intros x I0. apply in_app_or in I0. destruct I0 as [I0|[<-|[]]]; [exact (B x I0)|exact L].
Qed.
Lemma best_unique start l y y' : ~ is_nan y -> ~ is_nan y' -> best start l y -> best start l y' -> y = y'.
Proof.
  intros NY NY' (l1 & l2 & E & A & B) (l1' & l2' & E' & A' & B'). rewrite E in E'. clear E.
  apply app_eq_app in E'. destruct E' as [m [[E1 E2]|[E1 E2]]].
  - destruct m as [|z m]; [rewrite app_nil_l in E2; injection E2; auto|]. injection E2 as <- E2. exfalso.
    assert (I1 : In y l2') by (rewrite E2; apply in_or_app; right; left; reflexivity).
    assert (I2 : In y' l1) by (rewrite E1; apply in_or_app; right; left; reflexivity).
    pose proof (B' y I1) as X. destruct (A y' I2) as [Z|Z]; [exact (NY' Z)|congruence].
  - destruct m as [|z m]; [rewrite app_nil_l in E2; injection E2; auto|]. injection E2 as <- E2. exfalso.
    assert (I1 : In y' l2) by (rewrite E2; apply in_or_app; right; left; reflexivity).
    assert (I2 : In y l1') by (rewrite E1; apply in_or_app; right; left; reflexivity).
    pose proof (B y' I1) as X. destruct (A' y I2) as [Z|Z]; [exact (NY Z)|congruence].
Qed.
Lemma best_number start l y : ~ is_nan start -> best start l y -> ~ is_nan y.
Proof.
  intros NS (l1 & l2 & E & A & B). destruct l1 as [|a l1]; [injection E as -> _; exact NS|].
  injection E as -> _. destruct (A a (or_introl eq_refl)) as [Z|Z]; [destruct (NS Z)|]. exact (less_number _ _ Z).
Qed.
Lemma best_is start l y : ~ is_nan start -> best start l y -> fold_left (fun m n => if less m n then n else m) l start = y.
Proof.
  intros NS H. pose proof (fold_best l start NS) as F.
  exact (best_unique _ _ _ _ (best_number _ _ _ NS F) (best_number _ _ _ NS H) F H).
Qed.
End Folds.

Lemma not_lt a b : f64_lt a b = false -> ~ is_nan a -> ~ is_nan b -> key (f64_sf b) <= key (f64_sf a).
Proof.
  intros H NA NB. destruct (Z.le_gt_cases (key (f64_sf b)) (key (f64_sf a))) as [L|L]; [exact L|].
  rewrite (proj2 (lt_key a b)) in H; [discriminate H|repeat split; assumption].
Qed.
Lemma greatest_is start l y : ~ is_nan start -> greatest start l y -> fold_left (fun m n => if f64_lt m n then n else m) l start = y.
Proof.
  apply (best_is f64_lt).
  - intros a b c H H'. apply lt_key in H, H'. apply lt_key. by_keys.
  - intros a b c H NA H'. destruct (nan_dec b) as [NB|NB]; [left; exact NB|right]. pose proof (not_lt _ _ H NA NB). apply lt_key in H'. apply lt_key. by_keys.
  - intros a b H. apply lt_key in H. apply H.
Qed.
Lemma least_is start l y : ~ is_nan start -> least start l y -> fold_left (fun m n => if f64_lt n m then n else m) l start = y.
Proof.
  intros NS. apply (best_is (fun a b => f64_lt b a)); [| | |exact NS].
  - intros a b c H H'. apply lt_key in H, H'. apply lt_key. by_keys.
  - intros a b c H NA H'. destruct (nan_dec b) as [NB|NB]; [left; exact NB|right]. pose proof (not_lt _ _ H NB NA). apply lt_key in H'. apply lt_key. by_keys.
  - intros a b H. apply lt_key in H. apply H.
Qed.
Lemma greatest_exists start l : ~ is_nan start -> exists y, greatest start l y.
Proof.
  intros NS. eexists. apply (fold_best f64_lt); [| | |exact NS].
  - intros a b c H H'. apply lt_key in H, H'. apply lt_key. by_keys.
  - intros a b c H NA H'. destruct (nan_dec b) as [NB|NB]; [left; exact NB|right]. pose proof (not_lt _ _ H NA NB). apply lt_key in H'. apply lt_key. by_keys.
  - intros a b H. apply lt_key in H. apply H.
Qed.
Lemma least_exists start l : ~ is_nan start -> exists y, least start l y.
Proof.
  intros NS. eexists. apply (fold_best (fun a b => f64_lt b a)); [| | |exact NS].
  - intros a b c H H'. apply lt_key in H, H'. apply lt_key. by_keys.
  - intros a b c H NA H'. destruct (nan_dec b) as [NB|NB]; [left; exact NB|right]. pose proof (not_lt _ _ H NB NA). apply lt_key in H'. apply lt_key. by_keys.
  - intros a b H. apply lt_key in H. apply H.
Qed.

(** ** Integers *)

Lemma rep_of_pos s q : Zpos q < 2 ^ 53 -> representable (sf_of_pos s q).
Proof.
  intros H. destruct (sf_of_pos_char s q H) as (m & e & -> & He & _ & B & B'). cbn [representable]. split; [apply B|]. split; [lia|]. intros _. apply B.
Qed.
Lemma rep_round x : representable x -> representable (sf_round x).
Proof.
  destruct x as [s|s| |s m e]; intros R; try exact R. cbn [sf_round]. destruct (Z.leb_spec 0 e); [exact R|]. destruct R as (M & _ & _).
  pose proof (half_up_bounds (Zpos m) (- e) ltac:(lia) ltac:(lia)) as B.
  destruct ((Z.pos m + 2 ^ (- e - 1)) / 2 ^ (- e)) as [|q|q]; try exact I. apply rep_of_pos. change (2 ^ 53) with (2 * 2 ^ 52). lia.
Qed.
Lemma quot_small a d : 0 < d -> Z.abs (a / d) <= Z.abs a.
Proof.
  intros H. destruct (Z.le_gt_cases 0 a).
  - pose proof (Z.div_pos a d ltac:(lia) H). pose proof (Z.div_le_upper_bound a d a H ltac:(nia)). lia.
  - pose proof (Z.div_le_upper_bound a d 0 H ltac:(lia)). pose proof (Z.div_le_lower_bound a d a H ltac:(nia)). lia.
Qed.
Lemma rep_floor x : representable x -> representable (sf_floor x).
Proof.
  destruct x as [s|s| |s m e]; intros R; try exact R. cbn [sf_floor]. destruct (Z.leb_spec 0 e); [exact R|]. destruct R as (M & _ & _).
  pose proof (quot_small (cond_Zopp s (Zpos m)) (2 ^ (- e)) ltac:(apply Z.pow_pos_nonneg; lia)) as B.
  assert (A : Z.abs (cond_Zopp s (Zpos m)) = Zpos m) by (destruct s; reflexivity). rewrite A in B.
  destruct (cond_Zopp s (Z.pos m) / 2 ^ (- e)) as [|q|q]; cbn [Z.abs] in B; try exact I; apply rep_of_pos; lia.
Qed.
Lemma rep_trunc x : representable x -> representable (sf_trunc x).
Proof.
  destruct x as [s|s| |s m e]; intros R; try exact R. cbn [sf_trunc]. destruct (Z.leb_spec 0 e); [exact R|]. destruct R as (M & _ & _).
  pose proof (quot_small (Zpos m) (2 ^ (- e)) ltac:(apply Z.pow_pos_nonneg; lia)) as B.
  destruct (Z.pos m / 2 ^ (- e)) as [|q|q]; cbn [Z.abs] in B; try exact I; apply rep_of_pos; lia.
Qed.
Lemma trunc_value bits num den : double_value bits = Some (num, den) ->
  exists n, is_int_float (sf_trunc (f64_sf bits)) n /\ towards_zero bits n.
Proof.
  intros V. unfold towards_zero. rewrite V. pose proof (f64_sf_shape bits) as Sh. unfold double_value in V.
  destruct (f64_sf bits) as [s|s| |s m e]; try discriminate V.
  - injection V as <- <-. exists 0. split; [reflexivity|]. exists 0, 1. split; [reflexivity|lia].
  - destruct Sh as (M & EE & N0).
    assert (CV : (if s then Z.neg m else Z.pos m) = cond_Zopp s (Zpos m)) by (destruct s; reflexivity).
    rewrite CV in V. cbn [sf_trunc]. destruct (Z.leb_spec 0 e).
    + injection V as <- <-. exists (cond_Zopp s (Zpos m) * 2 ^ e). split.
      * cbn [is_int_float]. destruct (Z.leb_spec 0 e); [|lia]. split; [|reflexivity]. split; [apply N0; lia|exact M].
      * do 2 eexists. split; [reflexivity|]. split; [lia|]. apply Z.square_nonneg.
    + injection V as <- <-. assert (P : 0 < 2 ^ (- e)) by (apply Z.pow_pos_nonneg; lia).
      pose proof (quot_small (Zpos m) (2 ^ (- e)) P) as B. pose proof (Z.div_pos (Zpos m) (2 ^ (- e)) ltac:(lia) P) as Q0.
      pose proof (Z.div_mod (Zpos m) (2 ^ (- e)) ltac:(lia)) as D. pose proof (Z.mod_pos_bound (Zpos m) (2 ^ (- e)) P) as R.
      set (q := Z.pos m / 2 ^ (- e)) in *. exists (cond_Zopp s q). split.
      * destruct q as [|q|q]; [destruct s; reflexivity| |lia]. cbn [Z.abs] in B.
        destruct s; [apply (sf_of_Z_int (Zneg q))|apply (sf_of_Z_int (Zpos q))]; cbn [Z.abs]; lia.
      * do 2 eexists. split; [reflexivity|]. assert (AQ : Z.abs (cond_Zopp s q) = q) by (destruct s; cbn [cond_Zopp]; lia).
        assert (AM : Z.abs (cond_Zopp s (Zpos m)) = Zpos m) by (destruct s; reflexivity). rewrite AQ, AM. split; [nia|]. destruct s; cbn [cond_Zopp]; nia.
Qed.

Lemma bits_small x : representable x -> (f64_bits x < 2 ^ 64)%N.
Proof.
  destruct x as [s|s| |s m e]; cbn [representable f64_bits]; intros R; try (destruct s; reflexivity); [reflexivity|].
  destruct R as (M & E & _). change (2 ^ 53) with 9007199254740992 in M. unfold sign_bit. change (2 ^ 64)%N with 18446744073709551616%N.
  change (2 ^ 63)%N with 9223372036854775808%N. change (2 ^ 52)%N with 4503599627370496%N.
  destruct (N.ltb_spec (Npos m) 4503599627370496); destruct s; lia.
Qed.
Lemma sf_sign b : match f64_sf b with S754_zero s | S754_infinity s | S754_finite s _ _ => s = N.testbit b 63 | S754_nan => True end.
Proof.
  unfold f64_sf. destruct (_ =? 2047); [destruct (_ =? 0)%N; [reflexivity|exact I]|]. destruct (_ =? 0).
  - destruct (N.land b (2 ^ 52 - 1)); reflexivity.
  - destruct (N.land b (2 ^ 52 - 1) + 2 ^ 52)%N; [exact I|reflexivity].
Qed.

Lemma int_whole x n : representable x -> is_int_float x n -> whole (f64_bits x) n.
Proof.
  intros R H. unfold whole, double_value. rewrite (f64_sf_bits x R). destruct x as [s|s| |s m e]; try contradiction.
  - exists 0, 1. cbn [is_int_float] in H. subst n. split; [reflexivity|lia].
  - cbn [is_int_float] in H. destruct H as [_ H]. assert (CV : (if s then Z.neg m else Z.pos m) = cond_Zopp s (Zpos m)) by (destruct s; reflexivity). rewrite CV.
    destruct (Z.leb_spec 0 e); do 2 eexists; (split; [reflexivity|]).
    + split; [lia|]. rewrite H. lia.
    + split; [apply Z.pow_pos_nonneg; lia|exact H].
Qed.
Lemma too_small Q K m n : m < Q -> Q <= K -> 0 < m -> m = n * K \/ - m = n * K -> False.
Proof.
  intros MQ QK MP H. assert (NZ : n <> 0) by (intros ->; lia). assert (A : Z.abs (n * K) = m) by lia. rewrite Z.abs_mul in A.
  assert (K <= Z.abs n * Z.abs K) by (rewrite (Z.abs_eq K) by lia; assert (1 <= Z.abs n) by lia; nia). lia.
Qed.
Lemma whole_int d n : whole d n -> is_int_float (f64_sf d) n.
Proof.
  intros (num & den & V & D & E). pose proof (f64_sf_shape d) as Sh. unfold double_value in V. destruct (f64_sf d) as [s|s| |s m e]; try discriminate V.
  - injection V as <- <-. cbn [is_int_float]. lia.
  - destruct Sh as (M & EE & N0). assert (CV : (if s then Z.neg m else Z.pos m) = cond_Zopp s (Zpos m)) by (destruct s; reflexivity). rewrite CV in V.
    cbn [is_int_float]. destruct (Z.leb_spec 0 e) as [L|L]; injection V as <- <-.
    + split; [split; [apply N0; lia|exact M]|lia].
    + split; [|exact E]. split; [|exact M]. apply N0. intros ->. clear L EE. assert (P : 2 ^ (- -1074) = 2 ^ 53 * 2 ^ 1021) by reflexivity.
      assert (Q : 0 < 2 ^ 1021) by reflexivity. rewrite P in E. clear P D.
      assert (K : 2 ^ 53 <= 2 ^ 53 * 2 ^ 1021) by (apply Z.le_mul_diag_r; [reflexivity|lia]). clear Q.
      apply (too_small (2 ^ 53) (2 ^ 53 * 2 ^ 1021) (Zpos m) n M K eq_refl). destruct s; [right|left]; exact E.
Qed.
Lemma int_float_unique x y n : n <> 0 -> is_int_float x n -> is_int_float y n -> x = y.
Proof.
  intros NZ HX HY. destruct x as [s|s| |s m e]; try contradiction. destruct y as [s'|s'| |s' m' e']; try contradiction.
  pose proof (int_float_sign _ _ _ _ HX) as SX. pose proof (int_float_sign _ _ _ _ HY) as SY.
  assert (s' = s) as -> by (destruct s, s'; auto; lia).
  pose proof (int_float_compare _ _ _ _ HX HY) as C. rewrite Z.compare_refl in C. cbn [SFcompare] in C.
  destruct s; destruct (Z.compare_spec e e') as [->|L|L]; try discriminate C; injection C as C; rewrite pos_compare_cmp in C;
    destruct (Z.compare_spec (Zpos m) (Zpos m')) as [E|E|E]; try discriminate C; injection E as ->; reflexivity.
Qed.
Lemma whole_bits d x n : (d < 2 ^ 64)%N -> n <> 0 -> whole d n -> is_int_float x n -> f64_bits x = d.
Proof.
  intros LT NZ WD HX. apply whole_int in WD. rewrite (int_float_unique _ _ _ NZ HX WD). apply f64_bits_sf; [exact LT|].
  intros E. rewrite E in WD. exact WD.
Qed.
Lemma rounds_is x y : rounds x y -> f64_round x = y.
Proof.
  intros [n y' (num & den & V & NA) WY LT SG|V].
  - destruct (round_value _ _ _ V) as (D & n' & NA' & F). assert (n' = n) as -> by (eapply nearest_away_unique; eassumption).
    unfold f64_round. destruct (Z.eq_dec n 0) as [->|NZ]; [|apply (whole_bits _ _ n LT NZ WY F)].
    apply whole_int in WY. pose proof (sf_sign x) as SX. pose proof (sf_sign y') as SY.
    assert (ZY : f64_sf y' = S754_zero (N.testbit x 63)).
    { destruct (f64_sf y') as [s|s| |s m e]; try contradiction; [rewrite <- SG, SY; reflexivity|].
      pose proof (int_float_sign _ _ _ _ WY) as Z0. destruct s; lia. }
    assert (ZX : sf_round (f64_sf x) = S754_zero (N.testbit x 63)).
    { assert (Z0 : match sf_round (f64_sf x) with S754_finite _ _ _ => False | S754_zero _ => True | _ => False end).
      { destruct (sf_round (f64_sf x)) as [s|s| |s m e]; try contradiction; [exact I|]. pose proof (int_float_sign _ _ _ _ F) as Z0. destruct s; lia. }
      clear F. destruct (f64_sf x) as [s|s| |s m e]; cbn [sf_round] in *; try contradiction; [rewrite SX; reflexivity|]. destruct (0 <=? e); [contradiction|].
      destruct ((Z.pos m + 2 ^ (- e - 1)) / 2 ^ (- e)) as [|q|q]; [rewrite SX; reflexivity| |rewrite SX; reflexivity].
      exfalso. unfold sf_of_pos in Z0. destruct (Z.pos q * 2 ^ (53 - Z.pos (digits2_pos q))); contradiction. }
    rewrite ZX, <- ZY. apply f64_bits_sf; [exact LT|]. rewrite ZY. discriminate.
  - unfold f64_round, double_value in *. destruct (f64_sf x) as [s|s| |s m e]; try reflexivity; try discriminate V. destruct (0 <=? e); discriminate V.
Qed.
Lemma rounds_exists x : exists y, rounds x y.
Proof.
  destruct (double_value x) as [[num den]|] eqn:V; [|eexists; apply Rounds_not_finite, V].
  destruct (round_value _ _ _ V) as (D & n & NA & F). exists (f64_round x). eapply Rounds_finite with (n := n).
  - exists num, den. split; assumption.
  - apply int_whole; [apply rep_round, sf_representable|exact F].
  - apply bits_small, rep_round, sf_representable.
  - pose proof (sf_sign (f64_round x)) as SY. unfold f64_round in SY at 1. rewrite (f64_sf_bits _ (rep_round _ (sf_representable x))) in SY.
    pose proof (sf_sign x) as SX. destruct (f64_sf x) as [s|s| |s m e]; cbn [sf_round] in SY, F; try (rewrite <- SX, <- SY; reflexivity); [contradiction|].
    destruct (0 <=? e); [rewrite <- SX, <- SY; reflexivity|].
    destruct ((Z.pos m + 2 ^ (- e - 1)) / 2 ^ (- e)) as [|q|q]; try (rewrite <- SX, <- SY; reflexivity).
    unfold sf_of_pos in SY, F. destruct (Z.pos q * 2 ^ (53 - Z.pos (digits2_pos q))) as [|m'|m'] eqn:EM; try contradiction. rewrite <- SX, <- SY. reflexivity.
Qed.

(** CINT, INT and FIX. *)
Definition decided (way : N -> Z -> Prop) : Prop := forall x n n', way x n -> way x n' -> n = n'.
Lemma value_positive x num den : double_value x = Some (num, den) -> 0 < den.
Proof. intros V. exact (proj1 (round_value _ _ _ V)). Qed.
Lemma nearest_decided : decided to_nearest.
Proof.
  intros x n n' (num & den & V & A) (num' & den' & V' & A'). rewrite V in V'. injection V' as <- <-.
  eapply nearest_away_unique; [exact (value_positive _ _ _ V)|exact A|exact A'].
Qed.
Lemma downwards_decided : decided downwards.
Proof.
  intros x n n' (num & den & V & A) (num' & den' & V' & A'). rewrite V in V'. injection V' as <- <-. pose proof (value_positive _ _ _ V).
  unfold floor_of in *. nia.
Qed.
Lemma towards_zero_decided : decided towards_zero.
Proof.
  intros x n n' (num & den & V & A & B) (num' & den' & V' & A' & B'). rewrite V in V'. injection V' as <- <-. pose proof (value_positive _ _ _ V).
  assert (Z.abs n = Z.abs n') by nia. destruct (Z.eq_dec n n'); [assumption|]. assert (n' = - n) by lia. subst n'. exfalso.
  assert (n * num = 0) by nia. assert (num = 0) by nia. subst num. nia.
Qed.
Section Cast.
Variable show_double : N -> ustr.
Lemma cast_serves (way : N -> Z -> Prop) x y pos {G X} (w : numbers G X) r : decided way -> representable y -> (0 < length pos)%nat ->
  (forall num den, double_value x = Some (num, den) -> exists n, way x n /\ is_int_float (sf_round y) n) ->
  (double_value x = None -> sf_round y = f64_sf x /\ y = f64_sf x) -> (forall n, way x n -> double_value x <> None) ->
  casts show_double way x r -> exists r', cast show_double pos (f64_bits y) w = Some (w, r') /\ said r' = r.
Proof.
  intros U R LP FI NF WF H. unfold cast, double_to_integer, wrong, syntax_error. rewrite (f64_sf_bits y R).
  assert (P : exists q, nth_error pos 0 = Some q) by (destruct pos as [|q pos]; [cbn [length] in LP; lia|exists q; reflexivity]). destruct P as [q P]. rewrite P.
  destruct H as [n WN IN0|n d WN NI WD LT|V].
  - destruct (double_value x) as [[num den]|] eqn:V; [|destruct (WF n WN eq_refl)]. destruct (FI num den eq_refl) as (n' & WN' & F). rewrite (U x n' n WN' WN) in F.
    rewrite (convert_int _ _ F). rewrite (proj2 (is_i32_spec n) IN0). eexists. split; reflexivity.
  - destruct (double_value x) as [[num den]|] eqn:V; [|destruct (WF n WN eq_refl)]. destruct (FI num den eq_refl) as (n' & WN' & F). rewrite (U x n' n WN' WN) in F.
    rewrite (convert_int _ _ F). destruct (is_i32 n) eqn:Q; [destruct (NI (proj1 (is_i32_spec n) Q))|].
    eexists. split; [reflexivity|]. cbn [said]. unfold cannot_cast, f64_round. rewrite (f64_sf_bits y R).
    rewrite (whole_bits d (sf_round y) n LT); [reflexivity| |exact WD|exact F]. intros ->. apply NI. unfold in_i32, i32_min, i32_max. lia.
  - destruct (NF V) as [E EY]. assert (Q : sf_to_integer y = None).
    { unfold sf_to_integer. rewrite E. unfold double_value in V. destruct (f64_sf x) as [s|s| |s m e]; try reflexivity; try discriminate V. destruct (0 <=? e); discriminate V. }
    rewrite Q. eexists. split; [reflexivity|]. cbn [said]. unfold cannot_cast, f64_round. rewrite (f64_sf_bits y R), E. reflexivity.
Qed.
End Cast.
Lemma way_finite x n : to_nearest x n \/ downwards x n \/ towards_zero x n -> double_value x <> None.
Proof. intros [(num & den & V & _)|[(num & den & V & _)|(num & den & V & _)]]; rewrite V; discriminate. Qed.
Lemma not_finite_same x : double_value x = None -> sf_round (f64_sf x) = f64_sf x /\ sf_floor (f64_sf x) = f64_sf x /\ sf_trunc (f64_sf x) = f64_sf x.
Proof.
  unfold double_value. destruct (f64_sf x) as [s|s| |s m e]; intros V; try discriminate V; try (repeat split; reflexivity). destruct (0 <=? e); discriminate V.
Qed.

Lemma absolute_is x y : absolute x y -> f64_abs x = y.
Proof.
  intros [LT E]. unfold f64_abs. rewrite N.land_ones. change (2 ^ 63)%N with 9223372036854775808%N in *. destruct E as [->| ->]; lia.
Qed.
Lemma sign_is x z : sign_of x z -> (if f64_lt 0 x then 1 else if f64_lt x 0 then -1 else 0) = z.
Proof.
  intros H. assert (K0 : f64_sf 0 = S754_zero false) by reflexivity. unfold f64_lt, SFltb. rewrite K0.
  destruct H as [num den V|s V|V].
  - unfold double_value in V. destruct (f64_sf x) as [s|s| |s m e]; try discriminate V; cbn [SFcompare].
    + injection V as <- _. reflexivity.
    + assert (SN : Z.sgn num = if s then -1 else 1).
      { destruct (Z.leb_spec 0 e); injection V as <- _; [|destruct s; reflexivity]. rewrite Z.sgn_mul, (Z.sgn_pos (2 ^ e)) by (apply Z.pow_pos_nonneg; lia).
        destruct s; reflexivity. }
      rewrite SN. destruct s; reflexivity.
  - rewrite V. destruct s; reflexivity.
  - rewrite V. reflexivity.
Qed.
Lemma finite_value x : sf_is_finite (f64_sf x) = true <-> double_value x <> None.
Proof.
  unfold double_value. destruct (f64_sf x) as [s|s| |s m e]; cbn [sf_is_finite]; split; intros H; try reflexivity; try discriminate H; try (destruct H; reflexivity); try discriminate.
  destruct (0 <=? e); discriminate.
Qed.

(** ** All of them *)

Section Provides.
Variable lm : libm.
Variable show_double : N -> ustr.
Context {G X : Type}.
Variable rng : generator G X.

Lemma looped_given l arg text_of pos : given_from arg text_of 0 (map (fun x => GValue (CDouble x)) l) -> length pos = length (map (fun x => GValue (CDouble x)) l) ->
  (length l < 256)%nat -> looped arg pos = l.
Proof.
  intros GF LE LT. unfold looped. rewrite LE, map_length, Nat.mod_small by exact LT. clear LE LT.
  assert (P : forall k l', (forall i x, nth_error l' i = Some x -> arg (k + i)%nat = x) -> map arg (seq k (length l')) = l').
  { intros k l'. revert k. induction l' as [|a l' IH]; intros k H; [reflexivity|]. cbn [length seq map]. f_equal.
    - rewrite <- (Nat.add_0_r k). apply H. reflexivity.
    - apply IH. intros i x E. rewrite Nat.add_succ_comm. apply (H (S i) x E). }
  apply P. intros i x E. exact (GF i _ (map_nth_error _ _ _ E)).
Qed.
Lemma wrong_says (pos : list linecol) msg (w : numbers G X) : (0 < length pos)%nat -> exists r', wrong pos msg w = Some (w, r') /\ said r' = Err msg.
Proof.
  intros L. unfold wrong, syntax_error. destruct pos as [|q pos]; [cbn [length] in L; lia|]. eexists. split; reflexivity.
Qed.
Lemma casts_values way x r : casts show_double way x r -> forall v, r = Ok v -> exists z, v = Some (CInt z) /\ in_i32 z.
Proof. intros [n _ I0|n d _ _ _ _|_] v E; [injection E as <-; exists n; split; [reflexivity|exact I0]|discriminate E|discriminate E]. Qed.

Lemma declares_double md d v : md_return md = Some TDouble -> @Ok ustr _ (Some (CDouble d)) = Ok v -> declares md v.
Proof. intros R E. injection E as <-. unfold declares. rewrite R. split; [reflexivity|intros z Z0; discriminate Z0]. Qed.
Ltac answers := eexists; split; [reflexivity|reflexivity].
Ltac a_double := split; [intros v E; eapply declares_double; [reflexivity|exact E]|].
Ltac an_error := split; [intros v E; discriminate E|].
Lemma computes_provides (w : numbers G X) k x r : computes lm show_double w k x r ->
  exists p, find (fun p => ustr_eqb (pv_name p) k) (numerics_provided lm show_double rng) = Some p /\
    (forall v, r = Ok v -> declares (pv_md p) v) /\
    forall arg text_of pos, arg 0%nat = x -> length pos = 1%nat ->
      exists r', pv_exec p arg text_of pos w = Some (w, r') /\ said r' = r.
Proof.
  intros H. destruct H as [x y H|x r H|x r H|x r H|x y H|x z H|x H|x H|x H|x H|x H|x H|x H H'|x H|x H H'|x H|x|x|x|x]; eexists; (split; [reflexivity|]).
  - a_double. intros arg text_of pos A LE. cbn [pv_exec numeric]. unfold abs_exec, number. rewrite A, (absolute_is _ _ H). answers.
  - split; [intros v E; destruct (casts_values _ _ _ H v E) as (z & -> & IN0); split; [reflexivity|intros z' E'; injection E' as <-; exact IN0]|].
    intros arg text_of pos A LE. cbn [pv_exec numeric]. unfold cint_exec. rewrite A. clear A arg text_of.
    assert (E0 : cast show_double pos x w = cast show_double pos (f64_bits (f64_sf x)) w).
    { unfold cast, double_to_integer, f64_round. rewrite (f64_sf_bits _ (sf_representable x)). reflexivity. }
    rewrite E0. apply (cast_serves show_double to_nearest x (f64_sf x)); [exact nearest_decided|apply sf_representable|lia| | | |exact H].
    + intros num den V. destruct (round_value _ _ _ V) as (_ & n & NA & F). exists n. split; [exists num, den; split; assumption|exact F].
    + intros V. destruct (not_finite_same x V) as (A & _ & _). split; [exact A|reflexivity].
    + intros n WN. apply (way_finite x n). left. exact WN.
  - split; [intros v E; destruct (casts_values _ _ _ H v E) as (z & -> & IN0); split; [reflexivity|intros z' E'; injection E' as <-; exact IN0]|].
    intros arg text_of pos A LE. cbn [pv_exec numeric]. unfold int_exec, f64_floor. rewrite A. clear A arg text_of.
    apply (cast_serves show_double downwards x (sf_floor (f64_sf x))); [exact downwards_decided|apply rep_floor, sf_representable|lia| | | |exact H].
    + intros num den V. destruct (floor_value _ _ _ V) as (F & FL). exists (num / den). split; [exists num, den; split; assumption|apply round_int, F].
    + intros V. destruct (not_finite_same x V) as (A & B & _). rewrite B. split; [exact A|reflexivity].
    + intros n WN. apply (way_finite x n). right. left. exact WN.
  - split; [intros v E; destruct (casts_values _ _ _ H v E) as (z & -> & IN0); split; [reflexivity|intros z' E'; injection E' as <-; exact IN0]|].
    intros arg text_of pos A LE. cbn [pv_exec numeric]. unfold fix_exec, f64_trunc. rewrite A. clear A arg text_of.
    apply (cast_serves show_double towards_zero x (sf_trunc (f64_sf x))); [exact towards_zero_decided|apply rep_trunc, sf_representable|lia| | | |exact H].
    + intros num den V. destruct (trunc_value _ _ _ V) as (n & F & TZ). exists n. split; [exact TZ|apply round_int, F].
    + intros V. destruct (not_finite_same x V) as (A & _ & B). rewrite B. split; [exact A|reflexivity].
    + intros n WN. apply (way_finite x n). right. right. exact WN.
  - a_double. intros arg text_of pos A LE. cbn [pv_exec numeric]. unfold round_exec, number. rewrite LE, A. cbn [Nat.eqb]. rewrite (rounds_is _ _ H). answers.
  - split.
    { intros v E. injection E as <-. split; [reflexivity|]. intros z' E'. injection E' as <-. unfold in_i32, i32_min, i32_max.
      destruct H as [num den _|s _|_]; [destruct num; cbn [Z.sgn]; lia|destruct s; lia|lia]. }
    intros arg text_of pos A LE. cbn [pv_exec numeric]. unfold sgn_exec. rewrite A, (sign_is _ _ H). answers.
  - a_double. intros arg text_of pos A LE. cbn [pv_exec numeric]. unfold sqr_exec, number. rewrite A, H. answers.
  - an_error. intros arg text_of pos A LE. cbn [pv_exec numeric]. unfold sqr_exec. rewrite A, H. apply wrong_says. lia.
  - a_double. intros arg text_of pos A LE. cbn [pv_exec numeric]. unfold log_exec, number. rewrite A, H. answers.
  - an_error. intros arg text_of pos A LE. cbn [pv_exec numeric]. unfold log_exec. rewrite A, H. apply wrong_says. lia.
  - a_double. intros arg text_of pos A LE. cbn [pv_exec numeric]. unfold exp_exec, number. rewrite A, (proj2 (finite_value _) H). answers.
  - an_error. intros arg text_of pos A LE. cbn [pv_exec numeric]. unfold exp_exec. rewrite A.
    destruct (sf_is_finite (f64_sf (m_exp lm x))) eqn:F; [destruct (proj1 (finite_value _) F H)|]. apply wrong_says. lia.
  - a_double. intros arg text_of pos A LE. cbn [pv_exec numeric]. unfold acos_exec, in_unit, number. rewrite A, H, H'. answers.
  - an_error. intros arg text_of pos A LE. cbn [pv_exec numeric]. unfold acos_exec, in_unit. rewrite A.
    assert (E : f64_le f64_minus_one x && f64_le x f64_one = false) by (destruct H as [H|H]; rewrite H; [reflexivity|apply andb_false_r]).
    rewrite E. apply wrong_says. lia.
  - a_double. intros arg text_of pos A LE. cbn [pv_exec numeric]. unfold asin_exec, in_unit, number. rewrite A, H, H'. answers.
  - an_error. intros arg text_of pos A LE. cbn [pv_exec numeric]. unfold asin_exec, in_unit. rewrite A.
    assert (E : f64_le f64_minus_one x && f64_le x f64_one = false) by (destruct H as [H|H]; rewrite H; [reflexivity|apply andb_false_r]).
    rewrite E. apply wrong_says. lia.
  - a_double. intros arg text_of pos A LE. cbn [pv_exec numeric]. unfold atn_exec, number. rewrite A. answers.
  - a_double. intros arg text_of pos A LE. cbn [pv_exec numeric]. unfold cos_exec, number. rewrite A. answers.
  - a_double. intros arg text_of pos A LE. cbn [pv_exec numeric]. unfold sin_exec, number. rewrite A. answers.
  - a_double. intros arg text_of pos A LE. cbn [pv_exec numeric]. unfold tan_exec, number. rewrite A. answers.
Qed.

Ltac in_values := let k := fresh in let t := fresh in let I0 := fresh in
  intros k t I0; repeat match goal with H : In _ (_ :: _) |- _ => destruct H as [H|H]; [discriminate H|] | H : In _ [] |- _ => destruct H end.
Lemma numerics_provides : provides (numerics_provided lm show_double rng) (numerics_does lm show_double rng).
Proof.
  intros k gs w r w' H.
  destruct H as [k x r w H|x z y w H|l y w LT H|l y w LT H|w|w|w|z w g n E0|w x g0 g n E0 E1|w g n E0|z w g n L E0|w|z w g n L E0].
  - split; [in_values|]. destruct (computes_provides w k x r H) as (p & F & D & EX). exists p. split; [exact F|]. split; [exact D|].
    intros arg text_of pos GF LE. apply EX; [exact (GF 0%nat _ eq_refl)|exact LE].
  - split; [in_values|]. eexists. split; [reflexivity|]. a_double. intros arg text_of pos GF LE. cbn [pv_exec numeric].
    pose proof (GF 0%nat _ eq_refl) as G0. pose proof (GF 1%nat _ eq_refl) as G1. cbn [given_at Nat.add] in G0, G1.
    unfold round_exec, number. rewrite LE. cbn [length Nat.eqb]. rewrite G0, G1, (rounds_is _ _ H). answers.
  - split; [intros k t I0; apply in_map_iff in I0; destruct I0 as (? & E & _); discriminate E|]. eexists. split; [reflexivity|]. a_double.
    intros arg text_of pos GF LE. cbn [pv_exec numeric]. unfold max_exec, number. rewrite (looped_given _ _ _ _ GF LE LT).
    rewrite (greatest_is _ _ _ (ltac:(discriminate) : ~ is_nan f64_min) H). answers.
  - split; [intros k t I0; apply in_map_iff in I0; destruct I0 as (? & E & _); discriminate E|]. eexists. split; [reflexivity|]. a_double.
    intros arg text_of pos GF LE. cbn [pv_exec numeric]. unfold min_exec, number. rewrite (looped_given _ _ _ _ GF LE LT).
    rewrite (least_is _ _ _ (ltac:(discriminate) : ~ is_nan f64_max) H). answers.
  - split; [in_values|]. eexists. split; [reflexivity|]. a_double. intros arg text_of pos GF LE. answers.
  - split; [in_values|]. eexists. split; [reflexivity|]. split; [intros v E; injection E as <-; exact I|]. intros arg text_of pos GF LE. answers.
  - split; [in_values|]. eexists. split; [reflexivity|]. split; [intros v E; injection E as <-; exact I|]. intros arg text_of pos GF LE. answers.
  - split; [in_values|]. eexists. split; [reflexivity|]. split; [intros v E; injection E as <-; exact I|]. intros arg text_of pos GF LE.
    pose proof (GF 0%nat _ eq_refl) as G0. cbn [given_at Nat.add] in G0. cbn [pv_exec numeric]. unfold randomize_exec, prng_seed.
    rewrite LE, G0, E0. answers.
  - split; [in_values|]. eexists. split; [reflexivity|]. split; [intros v E; injection E as <-; exact I|]. intros arg text_of pos GF LE.
    cbn [pv_exec numeric]. unfold randomize_exec, prng_entropy. rewrite LE, E0, E1. answers.
  - split; [in_values|]. eexists. split; [reflexivity|]. a_double. intros arg text_of pos GF LE. cbn [pv_exec numeric].
    unfold rnd_exec, prng_next, prng_last, number. rewrite LE, E0. answers.
  - split; [in_values|]. eexists. split; [reflexivity|]. a_double. intros arg text_of pos GF LE. cbn [pv_exec numeric].
    pose proof (GF 0%nat _ eq_refl) as G0. cbn [given_at Nat.add] in G0. unfold rnd_exec, prng_next, prng_last, number.
    rewrite LE, E0, G0. cbn [length Nat.eqb]. rewrite (proj2 (Z.compare_gt_iff z 0) L). answers.
  - split; [in_values|]. eexists. split; [reflexivity|]. a_double. intros arg text_of pos GF LE. cbn [pv_exec numeric].
    pose proof (GF 0%nat _ eq_refl) as G0. cbn [given_at Nat.add] in G0. unfold rnd_exec, prng_last, number.
    rewrite LE, G0. answers.
  - split; [in_values|]. eexists. split; [reflexivity|]. a_double. intros arg text_of pos GF LE. cbn [pv_exec numeric].
    pose proof (GF 0%nat _ eq_refl) as G0. cbn [given_at Nat.add] in G0. unfold rnd_exec, prng_seed, prng_last, number.
    rewrite LE, G0. cbn [length Nat.eqb]. rewrite (proj2 (Z.compare_lt_iff z 0) L), E0. answers.
Qed.
End Provides.

(** ** Consequences *)

Lemma finite_number x : double_value x <> None -> ~ is_nan x /\ - key (f64_sf f64_max) <= key (f64_sf x) <= key (f64_sf f64_max).
Proof.
  intros H. assert (K : key (f64_sf f64_max) = 2046 * 2 ^ 54 + (2 ^ 53 - 1)) by (vm_compute; reflexivity). rewrite K. clear K. unfold is_nan.
  pose proof (f64_sf_shape x) as Sh. unfold double_value in H.
  destruct (f64_sf x) as [s|s| |s m e]; try (destruct H; reflexivity); (split; [discriminate|]); cbn [key].
  - change (2 ^ 54) with 18014398509481984. change (2 ^ 53) with 9007199254740992. lia.
  - destruct Sh as (M & EE & _). change (2 ^ 54) with 18014398509481984. change (2 ^ 53) with 9007199254740992 in *. destruct s; cbn [cond_Zopp]; lia.
Qed.
Lemma eq_key a b : ~ is_nan a -> ~ is_nan b -> key (f64_sf a) = key (f64_sf b) -> f64_eq a b = true.
Proof.
  intros NA NB E. unfold f64_eq, SFeqb. rewrite (key_compare _ _ (sf_representable a) (sf_representable b) NA NB), E, Z.compare_refl. reflexivity.
Qed.
Lemma lt_irrefl a b : ~ (f64_lt a b = true /\ f64_lt b a = true).
Proof. intros [A B]. apply lt_key in A, B. lia. Qed.
Lemma lt_not a b : f64_lt a b = true -> f64_lt b a = false.
Proof. intros A. destruct (f64_lt b a) eqn:B; [destruct (lt_irrefl a b (conj A B))|reflexivity]. Qed.
Lemma lt_self a : f64_lt a a = false.
Proof. destruct (f64_lt a a) eqn:B; [destruct (lt_irrefl a a (conj B B))|reflexivity]. Qed.

Lemma maximum_is l y : l <> [] -> (forall x, In x l -> double_value x <> None) -> greatest f64_min l y ->
  (exists x, In x l /\ f64_eq x y = true) /\ (forall x, In x l -> f64_lt y x = false).
Proof.
  intros NE FN (l1 & l2 & E & A & B).
  assert (UP : forall x, In x l -> f64_lt y x = false).
  { intros x I0. assert (I1 : In x (l1 ++ y :: l2)) by (rewrite <- E; right; exact I0). apply in_app_or in I1. destruct I1 as [I1|[<-|I1]].
    - destruct (A x I1) as [Z|Z]; [destruct (proj1 (finite_number x (FN x I0)) Z)|apply lt_not, Z].
    - apply lt_self.
    - apply B, I1. }
  split; [|exact UP]. destruct l1 as [|a l1].
  - injection E as <- <-. destruct l as [|x l]; [destruct (NE eq_refl)|]. exists x. split; [left; reflexivity|].
    pose proof (finite_number x (FN x (or_introl eq_refl))) as [NX KX]. assert (NM : ~ is_nan f64_min) by discriminate.
    apply eq_key; [exact NX|exact NM|]. pose proof (not_lt _ _ (UP x (or_introl eq_refl)) NM NX) as L.
    assert (K : key (f64_sf f64_min) = - key (f64_sf f64_max)) by reflexivity. lia.
  - injection E as <- E. exists y. assert (I0 : In y l) by (rewrite E; apply in_or_app; right; left; reflexivity). split; [exact I0|].
    apply eq_key; [apply finite_number, FN, I0|apply finite_number, FN, I0|reflexivity].
Qed.
Lemma minimum_is l y : l <> [] -> (forall x, In x l -> double_value x <> None) -> least f64_max l y ->
  (exists x, In x l /\ f64_eq x y = true) /\ (forall x, In x l -> f64_lt x y = false).
Proof.
  intros NE FN (l1 & l2 & E & A & B).
  assert (UP : forall x, In x l -> f64_lt x y = false).
  { intros x I0. assert (I1 : In x (l1 ++ y :: l2)) by (rewrite <- E; right; exact I0). apply in_app_or in I1. destruct I1 as [I1|[<-|I1]].
    - destruct (A x I1) as [Z|Z]; [destruct (proj1 (finite_number x (FN x I0)) Z)|apply lt_not, Z].
    - apply lt_self.
    - apply B, I1. }
  split; [|exact UP]. destruct l1 as [|a l1].
  - injection E as <- <-. destruct l as [|x l]; [destruct (NE eq_refl)|]. exists x. split; [left; reflexivity|].
    pose proof (finite_number x (FN x (or_introl eq_refl))) as [NX KX]. assert (NM : ~ is_nan f64_max) by discriminate.
    apply eq_key; [exact NX|exact NM|]. pose proof (not_lt _ _ (UP x (or_introl eq_refl)) NX NM) as L. lia.
  - injection E as <- E. exists y. assert (I0 : In y l) by (rewrite E; apply in_or_app; right; left; reflexivity). split; [exact I0|].
    apply eq_key; [apply finite_number, FN, I0|apply finite_number, FN, I0|reflexivity].
Qed.

Section Random.
Variable lm : libm.
Variable show_double : N -> ustr.
Context {G X : Type}.
Variable rng : generator G X.
Notation does := (numerics_does lm show_double rng).

Lemma rnd_does k gs w r w' : does k gs w r w' -> k = u "RND" ->
  (exists g n, next_u32 rng (nm_gen w) = (g, n) /\ r = fraction n /\ w' = with_generator w g n /\ (gs = [] \/ exists z, 0 < z /\ gs = [GValue (CInt z)])) \/
  (r = fraction (nm_last w) /\ w' = w /\ gs = [GValue (CInt 0)]) \/
  (exists z g n, z < 0 /\ gs = [GValue (CInt z)] /\ next_u32 rng (seed_from_u64 rng (Z.to_N (z mod 2 ^ 64))) = (g, n) /\ r = fraction n /\ w' = with_generator w g n).
Proof.
  intros H. destruct H as [k x r w H|x z y w H|l y w LT H|l y w LT H|w|w|w|z w g n E0|w x g0 g n E0 E1|w g n E0|z w g n L E0|w|z w g n L E0]; intros EK; try discriminate EK.
  - destruct H; discriminate EK.
  - left. exists g, n. split; [exact E0|]. split; [reflexivity|]. split; [reflexivity|left; reflexivity].
  - left. exists g, n. split; [exact E0|]. split; [reflexivity|]. split; [reflexivity|]. right. exists z. split; [exact L|reflexivity].
  - right. left. split; [reflexivity|]. split; reflexivity.
  - right. right. exists z, g, n. split; [exact L|]. split; [reflexivity|]. split; [exact E0|]. split; reflexivity.
Qed.
Lemma randomize_does k gs w r w' : does k gs w r w' -> k = u "RANDOMIZE" -> forall z, gs = [GValue (CInt z)] ->
  exists g n, next_u32 rng (seed_from_u64 rng (Z.to_N (z mod 2 ^ 64))) = (g, n) /\ w' = with_generator w g n.
Proof.
  intros H. destruct H as [k x r w H|x z y w H|l y w LT H|l y w LT H|w|w|w|z w g n E0|w x g0 g n E0 E1|w g n E0|z w g n L E0|w|z w g n L E0];
    intros EK z' EZ; try discriminate EK; try discriminate EZ.
  injection EZ as <-. exists g, n. split; [exact E0|reflexivity].
Qed.
Lemma fraction_value n d : fraction n = Ok (Some (CDouble d)) -> d = f64_div (f64_of_u32 n) f64_u32_max.
Proof. unfold fraction. generalize (f64_div (f64_of_u32 n) f64_u32_max). intros y E. injection E as ->. reflexivity. Qed.
Lemma draws_same w1 l1 e1 : draws lm show_double rng w1 l1 e1 -> forall w2 l2 e2, nm_gen w1 = nm_gen w2 -> draws lm show_double rng w2 l2 e2 ->
  length l1 = length l2 -> l1 = l2.
Proof.
  intros D. induction D as [w|w d v l e S0 D IH]; intros w2 l2 e2 EG D2 LE; destruct D2 as [w2|w2 d2 v2 l2 e2 S2 D2]; try discriminate LE; [reflexivity|].
  destruct (rnd_does _ _ _ _ _ S0 eq_refl) as [(g & n & E & R & EV & _)|[(_ & _ & Z0)|(? & ? & ? & _ & Z0 & _)]]; try discriminate Z0.
  destruct (rnd_does _ _ _ _ _ S2 eq_refl) as [(g2 & n2 & E2 & R2 & EV2 & _)|[(_ & _ & Z0)|(? & ? & ? & _ & Z0 & _)]]; try discriminate Z0.
  rewrite EG, E2 in E. injection E as <- <-. symmetry in R, R2. apply fraction_value in R, R2. rewrite R, R2. f_equal.
  apply (IH v2 l2 e2); [rewrite EV, EV2; reflexivity|exact D2|]. injection LE as LE. exact LE.
Qed.
Lemma random_repeats z w1 w2 w1' w2' l1 l2 e1 e2 :
  does (u "RANDOMIZE") [GValue (CInt z)] w1 (Ok None) w1' -> does (u "RANDOMIZE") [GValue (CInt z)] w2 (Ok None) w2' ->
  draws lm show_double rng w1' l1 e1 -> draws lm show_double rng w2' l2 e2 -> length l1 = length l2 -> l1 = l2.
Proof.
  intros H1 H2 D1 D2. apply (draws_same w1' l1 e1 D1 w2' l2 e2); [|exact D2].
  destruct (randomize_does _ _ _ _ _ H1 eq_refl z eq_refl) as (g & n & E & ->). destruct (randomize_does _ _ _ _ _ H2 eq_refl z eq_refl) as (g2 & n2 & E2 & ->).
  rewrite E in E2. injection E2 as <- <-. reflexivity.
Qed.
Lemma random_last gs w r w' : does (u "RND") gs w r w' -> does (u "RND") [GValue (CInt 0)] w' r w'.
Proof.
  intros H. destruct (rnd_does _ _ _ _ _ H eq_refl) as [(g & n & E & -> & -> & _)|[(-> & -> & _)|(z & g & n & _ & _ & E & -> & ->)]].
  - exact (Does_rnd_last lm show_double rng (with_generator w g n)).
  - apply Does_rnd_last.
  - exact (Does_rnd_last lm show_double rng (with_generator w g n)).
Qed.
Lemma random_seed z w r w' v v' : z < 0 -> does (u "RND") [GValue (CInt z)] w r w' -> does (u "RANDOMIZE") [GValue (CInt z)] v (Ok None) v' ->
  does (u "RND") [GValue (CInt 0)] v' r v'.
Proof.
  intros L H HR. destruct (randomize_does _ _ _ _ _ HR eq_refl z eq_refl) as (g & n & E & ->).
  destruct (rnd_does _ _ _ _ _ H eq_refl) as [(g' & n' & _ & _ & _ & [Z0|(z' & L' & Z0)])|[(_ & _ & Z0)|(z' & g' & n' & _ & Z0 & E' & -> & _)]]; try discriminate Z0.
  - injection Z0 as <-. lia.
  - injection Z0 as ->. lia.
  - injection Z0 as <-. rewrite E in E'. injection E' as <- <-. exact (Does_rnd_last lm show_double rng (with_generator v g n)).
Qed.
End Random.
