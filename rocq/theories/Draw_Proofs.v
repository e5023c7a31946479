(** Lemmas about the drawing primitives. *)
From Coq Require Import FinFun.
From Verif Require Import Base Draw_Model Draw_Spec.
Local Open Scope Z_scope.
Local Open Scope list_scope.

Lemma to_i16_id z : is16 z -> to_i16 z = z.
Proof. unfold is16, to_i16. intros H. rewrite Z.mod_small; lia. Qed.

Lemma to_i32_id z : -2147483648 <= z <= 2147483647 -> to_i32 z = z.
Proof. unfold to_i32. intros H. rewrite Z.mod_small; lia. Qed.

(** * Lines *)

(** How many steps of the minor axis there are after [j] steps of the major one. *)
Definition minor (M m j : Z) : Z := (2 * j * m + M - 1) / (2 * M).

Lemma minor_bounds M m j : 0 < M -> M * (2 * minor M m j - 1) < 2 * j * m <= M * (2 * minor M m j + 1).
Proof.
  intros H. unfold minor. pose proof (Z.div_mod (2 * j * m + M - 1) (2 * M) ltac:(lia)) as D.
  pose proof (Z.mod_pos_bound (2 * j * m + M - 1) (2 * M) ltac:(lia)) as B.
  set (q := (2 * j * m + M - 1) / (2 * M)) in *. set (t := 2 * j * m) in *. nia.
Qed.

Lemma minor_unique M m j s : 0 < M -> M * (2 * s - 1) < 2 * j * m <= M * (2 * s + 1) -> s = minor M m j.
Proof. intros H B. pose proof (minor_bounds M m j H). nia. Qed.

Lemma minor_0 M m : 0 <= M -> minor M m 0 = 0.
Proof.
  intros H. destruct (Z.eq_dec M 0) as [->|N]; [reflexivity|]. symmetry. apply minor_unique; lia.
Qed.

Lemma minor_end M m : 0 <= m <= M -> minor M m M = m.
Proof.
  intros H. destruct (Z.eq_dec M 0) as [->|N].
  - assert (m = 0) as -> by lia. reflexivity.
  - symmetry. apply minor_unique; nia.
Qed.

Lemma minor_range M m j : 0 <= m <= M -> 0 <= j <= M -> 0 <= minor M m j <= m.
Proof.
  intros H J. destruct (Z.eq_dec M 0) as [->|N].
  - assert (m = 0) as -> by lia. unfold minor. rewrite Zdiv_0_r. lia.
  - pose proof (minor_bounds M m j ltac:(lia)). nia.
Qed.

Lemma minor_step M m j : 0 < M -> 0 <= m <= M ->
  minor M m (j + 1) = if 0 <? 2 * m * (j + 1) - M * (2 * minor M m j + 1) then minor M m j + 1 else minor M m j.
Proof.
  intros H B. pose proof (minor_bounds M m j H) as A. symmetry.
  destruct (0 <? _) eqn:E; [apply Z.ltb_lt in E|apply Z.ltb_ge in E]; apply minor_unique; nia.
Qed.

Definition err (M m j : Z) : Z := 2 * m * (j + 1) - M * (2 * minor M m j + 1).

Lemma err_range M m j : 0 < M -> 0 <= m <= M -> - (2 * M) <= err M m j <= 2 * M.
Proof. intros H B. unfold err. pose proof (minor_bounds M m j H). nia. Qed.

Lemma low_loop_closed x1 y1 yi M m : 0 <= m <= M -> M <= 65535 -> is16 y1 -> (yi = 1 \/ yi = -1) ->
  forall n k, 0 <= k -> k + Z.of_nat n <= M + 1 ->
  low_loop n (x1 + k) (y1 + yi * minor M m k) (err M m k) yi M m =
  map (fun j => (x1 + k + Z.of_nat j, y1 + yi * minor M m (k + Z.of_nat j), err M m (k + Z.of_nat j))) (seq 0 n).
Proof.
  intros B L I Y. unfold is16 in I. induction n as [|n IH]; intros k K E; [reflexivity|].
  cbn [low_loop seq map]. f_equal.
  - replace (k + Z.of_nat 0) with k by lia. f_equal. f_equal. lia.
  - destruct n as [|n].
    { cbn [seq map low_loop]. now destruct (0 <? err M m k). }
    assert (P : 0 < M) by lia.
    pose proof (minor_step M m k P B) as St. fold (err M m k) in St.
    assert (Next : low_loop (S n) (x1 + (k + 1)) (y1 + yi * minor M m (k + 1)) (err M m (k + 1)) yi M m =
      map (fun j => (x1 + k + Z.of_nat j, y1 + yi * minor M m (k + Z.of_nat j), err M m (k + Z.of_nat j)))
        (seq 1 (S n))).
    { rewrite IH by lia. rewrite <- (seq_shift (S n) 0), map_map. apply map_ext_in. intros j _.
      replace (k + 1 + Z.of_nat j) with (k + Z.of_nat (S j)) by lia. f_equal. f_equal. lia. }
    rewrite <- Next. pose proof (err_range M m k P B) as Rg. pose proof (err_range M m (k + 1) P B) as Rg'.
    pose proof (minor_range M m (k + 1) B ltac:(lia)) as Mr.
    replace (x1 + k + 1) with (x1 + (k + 1)) by lia.
    destruct (0 <? err M m k) eqn:D.
    + assert (E1 : y1 + yi * minor M m k + yi = y1 + yi * minor M m (k + 1)) by (rewrite St; ring).
      assert (E2 : err M m k + 2 * (m - M) = err M m (k + 1)) by (unfold err; rewrite St; ring).
      rewrite E1, E2, !to_i32_id by nia. reflexivity.
    + assert (E1 : y1 + yi * minor M m k = y1 + yi * minor M m (k + 1)) by (rewrite St; ring).
      assert (E2 : err M m k + 2 * m = err M m (k + 1)) by (unfold err; rewrite St; ring).
      rewrite E1, E2, !to_i32_id by nia. reflexivity.
Qed.

Lemma high_loop_low n : forall x y d xi dx dy,
  high_loop n x y d xi dx dy = map (fun '(a, b, c) => (b, a, c)) (low_loop n y x d xi dy dx).
Proof.
  induction n as [|n IH]; intros x y d xi dx dy; [reflexivity|]. cbn [high_loop low_loop map].
  destruct (0 <? d); rewrite IH; reflexivity.
Qed.

Definition flip (p : point) : point := (snd p, fst p).

(** The pixels of a line that is not steep, from left to right. *)
Definition slope (a b : Z) : Z := if b <? a then -1 else 1.
Definition run_line (x1 y1 x2 y2 : Z) : list point :=
  map (fun j => (x1 + Z.of_nat j, y1 + slope y1 y2 * minor (x2 - x1) (Z.abs (y2 - y1)) (Z.of_nat j)))
    (seq 0 (Z.to_nat (x2 + 1 - x1))).

Lemma draw_line_low_run x1 y1 x2 y2 : is16 x1 -> is16 y1 -> is16 x2 -> is16 y2 ->
  Z.abs (y2 - y1) <= x2 - x1 -> draw_line_low x1 y1 x2 y2 = run_line x1 y1 x2 y2.
Proof.
  unfold is16. intros A B C D H. unfold draw_line_low. rewrite !(to_i32_id (x2 - x1)), !(to_i32_id (y2 - y1)) by lia.
  set (yi := if y2 - y1 <? 0 then -1 else 1).
  assert (S : yi = slope y1 y2 /\ (yi = 1 \/ yi = -1) /\ (if y2 - y1 <? 0 then to_i32 (- (y2 - y1)) else y2 - y1) = Z.abs (y2 - y1)).
  { unfold yi, slope. destruct (y2 - y1 <? 0) eqn:E; [apply Z.ltb_lt in E|apply Z.ltb_ge in E].
    - rewrite to_i32_id by lia. destruct (y2 <? y1) eqn:F; [|apply Z.ltb_ge in F; lia]. repeat split; lia.
    - destruct (y2 <? y1) eqn:F; [apply Z.ltb_lt in F; lia|]. repeat split; lia. }
  destruct S as (S1 & S2 & S3). rewrite S3, (to_i32_id (2 * _ - _)) by lia.
  set (M := x2 - x1) in *. set (m := Z.abs (y2 - y1)) in *.
  pose proof (low_loop_closed x1 y1 yi M m ltac:(lia) ltac:(lia) ltac:(unfold is16; lia) S2
                (Z.to_nat (x2 + 1 - x1)) 0 ltac:(lia) ltac:(lia)) as X.
  rewrite minor_0 in X by lia. unfold err in X at 1. rewrite minor_0 in X by lia.
  replace (x1 + 0) with x1 in X by lia. replace (y1 + yi * 0) with y1 in X by lia.
  replace (2 * m * (0 + 1) - M * (2 * 0 + 1)) with (2 * m - M) in X by lia.
  rewrite X, map_map. unfold run_line. apply map_ext_in. intros j J. apply in_seq in J.
  replace (x1 + 0 + Z.of_nat j) with (x1 + Z.of_nat j) by lia. cbn [Z.add].
  pose proof (minor_range M m (Z.of_nat j) ltac:(lia) ltac:(lia)) as R.
  rewrite S1 in *. fold m. fold M. rewrite !to_i16_id; [reflexivity| |].
  - unfold is16. assert (slope y1 y2 * minor M m (Z.of_nat j) = minor M m (Z.of_nat j) /\ y1 <= y2 \/
                         slope y1 y2 * minor M m (Z.of_nat j) = - minor M m (Z.of_nat j) /\ y2 < y1).
    { unfold slope. destruct (y2 <? y1) eqn:F; [apply Z.ltb_lt in F|apply Z.ltb_ge in F]; [right|left]; split; lia. }
    lia.
  - unfold is16. lia.
Qed.

Lemma draw_line_high_low x1 y1 x2 y2 : draw_line_high x1 y1 x2 y2 = map flip (draw_line_low y1 x1 y2 x2).
Proof.
  unfold draw_line_high, draw_line_low. rewrite high_loop_low, !map_map. apply map_ext.
  intros [[a b] c]. reflexivity.
Qed.

(** Facts of a line that is not steep. *)
Section Run.
Variables x1 y1 x2 y2 : Z.
Hypothesis Hs : Z.abs (y2 - y1) <= x2 - x1.

Let M := x2 - x1.
Let m := Z.abs (y2 - y1).

Lemma run_nth j : (j < Z.to_nat (x2 + 1 - x1))%nat ->
  nth_error (run_line x1 y1 x2 y2) j =
  Some (x1 + Z.of_nat j, y1 + slope y1 y2 * minor M m (Z.of_nat j)).
Proof.
  intros J. unfold run_line. rewrite nth_error_map.
  rewrite (nth_error_nth' _ 0%nat) by (rewrite seq_length; exact J). rewrite seq_nth by exact J. reflexivity.
Qed.

Lemma run_length : Z.of_nat (length (run_line x1 y1 x2 y2)) = M + 1.
Proof. unfold run_line, M. rewrite map_length, seq_length. lia. Qed.

Lemma slope_minor j : 0 <= j <= M ->
  (y1 <= y2 /\ slope y1 y2 = 1 \/ y2 < y1 /\ slope y1 y2 = -1) /\ 0 <= minor M m j <= m.
Proof.
  intros J. split; [|apply minor_range; unfold M, m in *; lia]. unfold slope.
  destruct (y2 <? y1) eqn:F; [apply Z.ltb_lt in F|apply Z.ltb_ge in F]; lia.
Qed.

Lemma run_in p : In p (run_line x1 y1 x2 y2) <->
  exists j, 0 <= j <= M /\ p = (x1 + j, y1 + slope y1 y2 * minor M m j).
Proof.
  unfold run_line. rewrite in_map_iff. split.
  - intros (j & E & J). apply in_seq in J. exists (Z.of_nat j). split; [unfold M; lia|]. symmetry. exact E.
  - intros (j & J & E). exists (Z.to_nat j). rewrite Z2Nat.id by lia. split; [symmetry; exact E|].
    apply in_seq. unfold M in *. lia.
Qed.

Lemma run_box p : In p (run_line x1 y1 x2 y2) -> in_box (x1, y1) (x2, y2) p.
Proof.
  intros H. apply run_in in H. destruct H as (j & J & ->). destruct (slope_minor j J) as [S R].
  unfold in_box, between. cbn [fst snd]. unfold M, m in *. split; [lia|].
  destruct S as [[S1 S2]|[S1 S2]]; rewrite S2; lia.
Qed.

Lemma run_near p : In p (run_line x1 y1 x2 y2) -> near_line (x1, y1) (x2, y2) p.
Proof.
  intros H. apply run_in in H. destruct H as (j & J & ->). destruct (slope_minor j J) as [S R].
  unfold near_line, distance. cbn [fst snd].
  replace (x1 + j - x1) with j by lia.
  replace (y1 + slope y1 y2 * minor M m j - y1) with (slope y1 y2 * minor M m j) by lia.
  assert (Z.max (Z.abs (x2 - x1)) (Z.abs (y2 - y1)) = M) as -> by (unfold M; lia). fold M.
  destruct (Z.eq_dec M 0) as [Z0|P].
  - assert (j = 0) as -> by lia. assert (minor M m 0 = 0) as -> by (apply minor_0; lia).
    rewrite Z.mul_0_r, !Z.mul_0_l. cbn. lia.
  - pose proof (minor_bounds M m j ltac:(lia)) as B.
    assert (Q : slope y1 y2 * (y2 - y1) = m) by (unfold m; destruct S as [[S1 S2]|[S1 S2]]; rewrite S2; lia).
    assert (Q' : y2 - y1 = slope y1 y2 * m) by (unfold m; destruct S as [[S1 S2]|[S1 S2]]; rewrite S2; lia).
    rewrite Q'. replace (j * (slope y1 y2 * m) - slope y1 y2 * minor M m j * M)
      with (slope y1 y2 * (j * m - minor M m j * M)) by ring.
    assert (Abs : Z.abs (slope y1 y2 * (j * m - minor M m j * M)) = Z.abs (j * m - minor M m j * M))
      by (destruct S as [[S1 S2]|[S1 S2]]; rewrite S2; lia).
    rewrite Abs. set (s := minor M m j) in *. nia.
Qed.

Lemma unbroken_map (f : nat -> point) : forall n a,
  (forall j, (a <= j < a + n - 1)%nat -> distance (f j) (f (S j)) = 1) -> unbroken (map f (seq a n)).
Proof.
  induction n as [|n IH]; intros a H; [exact I|]. destruct n as [|n]; [exact I|].
  cbn [seq map unbroken]. split; [apply H; lia|].
  apply (IH (S a)). intros j J. apply H. lia.
Qed.

Lemma run_unbroken : unbroken (run_line x1 y1 x2 y2).
Proof.
  unfold run_line. apply unbroken_map. intros j J. unfold distance. cbn [fst snd].
  fold M m. rewrite Nat2Z.inj_succ, <- Z.add_1_r.
  assert (P : 0 < M) by (unfold M; lia).
  rewrite (minor_step M m (Z.of_nat j) P ltac:(unfold M, m; lia)).
  destruct (slope_minor (Z.of_nat j) ltac:(unfold M in *; lia)) as [[[S1 S2]|[S1 S2]] R]; rewrite S2;
    destruct (0 <? _); lia.
Qed.

Lemma run_nodup : NoDup (run_line x1 y1 x2 y2).
Proof.
  unfold run_line. apply Injective_map_NoDup; [|apply seq_NoDup].
  intros a b E. apply (f_equal fst) in E. cbn in E. lia.
Qed.

Lemma run_joins : joins (x1, y1) (x2, y2) (run_line x1 y1 x2 y2).
Proof.
  unfold joins. assert (L := run_length). unfold M in L.
  destruct (run_line x1 y1 x2 y2) as [|p l] eqn:E; [cbn in L; lia|].
  assert (p = (x1, y1)) as ->.
  { pose proof (run_nth 0 ltac:(lia)) as X. rewrite E in X. cbn [nth_error] in X.
    rewrite minor_0 in X by (unfold M; lia). inversion X. f_equal; lia. }
  exists l. split; [reflexivity|].
  pose proof (run_nth (Z.to_nat (x2 - x1)) ltac:(lia)) as X. rewrite E in X.
  assert (Q : last ((x1, y1) :: l) (x1, y1) = nth (Z.to_nat (x2 - x1)) ((x1, y1) :: l) (x1, y1)).
  { assert (K : length ((x1, y1) :: l) = S (Z.to_nat (x2 - x1))) by (apply Nat2Z.inj; unfold point in *; lia).
    revert K. generalize ((x1, y1) :: l) as w. generalize (Z.to_nat (x2 - x1)) as n. generalize (x1, y1) as d.
    clear. intros d n w. revert n. induction w as [|a w IH]; intros n K; [discriminate|].
    destruct w as [|b w]; [cbn in K; assert (n = 0)%nat as -> by lia; reflexivity|].
    destruct n as [|n]; [cbn in K; lia|]. change (last (b :: w) d = nth n (b :: w) d). apply IH. cbn [length] in *. lia. }
  etransitivity; [exact Q|]. apply (nth_error_nth _ _ (x1, y1)) in X. etransitivity; [exact X|].
  rewrite Z2Nat.id by lia.
  fold M. rewrite minor_end by (unfold M, m; lia).
  unfold m, M, slope. destruct (y2 <? y1) eqn:F; [apply Z.ltb_lt in F|apply Z.ltb_ge in F]; f_equal; lia.
Qed.
End Run.

(** Everything about a list that does not depend on which axis is which. *)
Definition good_line (p q : point) (l : list point) : Prop :=
  Z.of_nat (length l) = distance p q + 1 /\ joins p q l /\ unbroken l /\ NoDup l /\
  forall r, In r l -> in_box p q r /\ near_line p q r.

Lemma run_good x1 y1 x2 y2 : Z.abs (y2 - y1) <= x2 - x1 ->
  good_line (x1, y1) (x2, y2) (run_line x1 y1 x2 y2).
Proof.
  intros H. split; [|split; [|split; [|split]]].
  - rewrite run_length by exact H. unfold distance. cbn [fst snd]. lia.
  - apply run_joins, H.
  - apply run_unbroken, H.
  - apply run_nodup; exact H.
  - intros r R. split; [apply run_box|apply run_near]; assumption.
Qed.

Lemma distance_flip p q : distance (flip p) (flip q) = distance p q.
Proof. unfold distance, flip. cbn [fst snd]. apply Z.max_comm. Qed.

Lemma distance_sym p q : distance p q = distance q p.
Proof. unfold distance. lia. Qed.

Lemma unbroken_flip l : unbroken (map flip l) <-> unbroken l.
Proof.
  induction l as [|p l IH]; [reflexivity|]. destruct l as [|q l]; [reflexivity|].
  cbn [map unbroken] in *. rewrite distance_flip, IH. reflexivity.
Qed.

Lemma last_map {A B} (f : A -> B) l d : last (map f l) (f d) = f (last l d).
Proof. induction l as [|a l IH]; [reflexivity|]. destruct l as [|b l]; [reflexivity|]. exact IH. Qed.

Lemma flip_flip p : flip (flip p) = p.
Proof. destruct p. reflexivity. Qed.

Lemma good_flip p q l : good_line p q l -> good_line (flip p) (flip q) (map flip l).
Proof.
  intros (A & (m & -> & B) & C & D & E). split; [|split; [|split; [|split]]].
  - rewrite map_length, distance_flip. exact A.
  - exists (map flip m). split; [reflexivity|]. cbn [map].
    change (flip p :: map flip m) with (map flip (p :: m)). rewrite last_map, B. reflexivity.
  - apply unbroken_flip, C.
  - apply Injective_map_NoDup; [|exact D]. intros a b F. rewrite <- (flip_flip a), F. apply flip_flip.
  - intros r R. apply in_map_iff in R. destruct R as (r0 & <- & R). apply E in R. destruct R as [R1 R2].
    destruct p, q, r0. unfold in_box, near_line, distance, flip in *. cbn [fst snd] in *. split; [tauto|]. lia.
Qed.

(** [draw_line] is one of four runs. *)
Lemma draw_line_cases p q : pixel p -> pixel q ->
  (exists a b c d, (p = (a, b) /\ q = (c, d) \/ q = (a, b) /\ p = (c, d)) /\
     Z.abs (d - b) <= c - a /\ Z.abs (snd q - snd p) < Z.abs (fst q - fst p) /\
     draw_line p q = run_line a b c d) \/
  (exists a b c d, (p = (a, b) /\ q = (c, d) \/ q = (a, b) /\ p = (c, d)) /\
     Z.abs (c - a) <= d - b /\ Z.abs (fst q - fst p) <= Z.abs (snd q - snd p) /\
     draw_line p q = map flip (run_line b a d c)).
Proof.
  destruct p as [x1 y1], q as [x2 y2]. intros [P1 P2] [Q1 Q2]. cbn [fst snd] in *.
  unfold draw_line. destruct (Z.abs (y2 - y1) <? Z.abs (x2 - x1)) eqn:E.
  - left. apply Z.ltb_lt in E. destruct (x2 <? x1) eqn:F; [apply Z.ltb_lt in F|apply Z.ltb_ge in F].
    + exists x2, y2, x1, y1. rewrite draw_line_low_run by (auto; lia). repeat split; auto; lia.
    + exists x1, y1, x2, y2. rewrite draw_line_low_run by (auto; lia). repeat split; auto; lia.
  - right. apply Z.ltb_ge in E. destruct (y2 <? y1) eqn:F; [apply Z.ltb_lt in F|apply Z.ltb_ge in F].
    + exists x2, y2, x1, y1. rewrite draw_line_high_low, draw_line_low_run by (auto; lia). repeat split; auto; lia.
    + exists x1, y1, x2, y2. rewrite draw_line_high_low, draw_line_low_run by (auto; lia). repeat split; auto; lia.
Qed.

Lemma draw_line_good p q : pixel p -> pixel q ->
  good_line p q (draw_line p q) \/ good_line q p (draw_line p q).
Proof.
  intros P Q. destruct (draw_line_cases p q P Q) as [(a & b & c & d & E & H & _ & ->)|(a & b & c & d & E & H & _ & ->)].
  - pose proof (run_good a b c d H) as G. destruct E as [[-> ->]|[-> ->]]; auto.
  - pose proof (good_flip _ _ _ (run_good b a d c H)) as G. destruct E as [[-> ->]|[-> ->]]; auto.
Qed.

Lemma near_line_sym p q r : near_line p q r -> near_line q p r.
Proof.
  unfold near_line. rewrite (distance_sym q p). intros H.
  replace ((fst r - fst q) * (snd p - snd q) - (snd r - snd q) * (fst p - fst q))
    with (- ((fst r - fst p) * (snd q - snd p) - (snd r - snd p) * (fst q - fst p))) by ring.
  rewrite Z.abs_opp. exact H.
Qed.

Lemma in_box_sym p q r : in_box p q r -> in_box q p r.
Proof. unfold in_box, between. lia. Qed.

Lemma joins_in p q l : joins p q l -> In p l /\ In q l.
Proof.
  intros (m & -> & H). split; [left; reflexivity|]. rewrite <- H.
  assert (p :: m <> []) as N by discriminate. destruct (exists_last N) as (w & x & E). rewrite E, last_last.
  apply in_app_iff. right. left. reflexivity.
Qed.

Lemma draw_line_comm p q : pixel p -> pixel q -> draw_line p q = draw_line q p.
Proof.
  destruct p as [x1 y1], q as [x2 y2]. intros P Q. unfold draw_line.
  replace (Z.abs (y1 - y2)) with (Z.abs (y2 - y1)) by lia. replace (Z.abs (x1 - x2)) with (Z.abs (x2 - x1)) by lia.
  destruct (Z.abs (y2 - y1) <? Z.abs (x2 - x1)) eqn:E.
  - apply Z.ltb_lt in E. destruct (x2 <? x1) eqn:F, (x1 <? x2) eqn:G; try reflexivity;
      apply Z.ltb_lt in F || apply Z.ltb_ge in F; apply Z.ltb_lt in G || apply Z.ltb_ge in G; lia.
  - apply Z.ltb_ge in E. destruct (y2 <? y1) eqn:F, (y1 <? y2) eqn:G; try reflexivity;
      apply Z.ltb_lt in F || apply Z.ltb_ge in F; apply Z.ltb_lt in G || apply Z.ltb_ge in G; try lia.
    assert (y1 = y2) as -> by lia. assert (x1 = x2) as -> by lia. reflexivity.
Qed.

(** * Straight lines *)

Lemma minor_flat M j : 0 <= j <= M -> minor M 0 j = 0.
Proof. intros H. pose proof (minor_range M 0 j). lia. Qed.

Lemma draw_horizontal a b y p : is16 a -> is16 b -> is16 y -> a <= b ->
  (In p (draw_line (a, y) (b, y)) <-> snd p = y /\ a <= fst p <= b).
Proof.
  intros A B Y L. unfold draw_line. replace (y - y) with 0 by lia.
  destruct (Z.abs 0 <? Z.abs (b - a)) eqn:E.
  - destruct (b <? a) eqn:F; [apply Z.ltb_lt in F; lia|].
    rewrite draw_line_low_run by (auto; lia). rewrite run_in by lia. replace (y - y) with 0 by lia. cbn [Z.abs].
    destruct p as [px py]. cbn [fst snd]. split.
    + intros (j & J & X). rewrite minor_flat in X by lia. inversion X. lia.
    + intros [-> H]. exists (px - a). split; [lia|]. rewrite minor_flat by lia. f_equal; lia.
  - apply Z.ltb_ge in E. assert (b = a) as -> by lia. rewrite Z.ltb_irrefl.
    rewrite draw_line_high_low, draw_line_low_run by (auto; lia).
    rewrite in_map_iff. destruct p as [px py]. cbn [fst snd]. split.
    + intros (q & Q & H). apply run_in in H; [|lia]. destruct H as (j & J & ->). assert (j = 0) as -> by lia.
      rewrite minor_0 in Q by lia. unfold flip in Q. cbn [fst snd] in Q. apply pair_equal_spec in Q. lia.
    + intros [-> H]. exists (y, px). split; [reflexivity|]. apply run_in; [lia|]. exists 0. split; [lia|].
      rewrite minor_0 by lia. apply pair_equal_spec. lia.
Qed.

Lemma draw_vertical x a b p : is16 a -> is16 b -> is16 x -> a <= b ->
  (In p (draw_line (x, a) (x, b)) <-> fst p = x /\ a <= snd p <= b).
Proof.
  intros A B X L. unfold draw_line. replace (x - x) with 0 by lia.
  destruct (Z.abs (b - a) <? Z.abs 0) eqn:E; [apply Z.ltb_lt in E; lia|].
  destruct (b <? a) eqn:F; [apply Z.ltb_lt in F; lia|].
  rewrite draw_line_high_low, draw_line_low_run by (auto; lia). rewrite in_map_iff.
  destruct p as [px py]. cbn [fst snd]. split.
  - intros (r & R & H). apply run_in in H; [|lia]. destruct H as (j & J & ->).
    replace (x - x) with 0 in R by lia. cbn [Z.abs] in R. rewrite minor_flat in R by lia.
    unfold flip in R. cbn [fst snd] in R. apply pair_equal_spec in R. lia.
  - intros [-> H]. exists (py, x). split; [reflexivity|]. apply run_in; [lia|].
    exists (py - a). split; [lia|]. replace (x - x) with 0 by lia. cbn [Z.abs]. rewrite minor_flat by lia. f_equal; lia.
Qed.

(** * Circles *)

(** The pixels of an eighth of a circle. *)
Definition octant (r a b : Z) : Prop :=
  0 <= b <= a /\ a < r /\ a * a + b * b <= r * r /\ ((a + 1) * (a + 1) + b * b > r * r \/ a = r - 1).

Lemma no_more r x y a b : 0 <= y -> 0 <= x + 1 -> x < y ->
  ((x + 1) * (x + 1) + y * y > r * r \/ x = r - 1) -> y <= b -> 0 <= b <= a -> a < r ->
  a * a + b * b <= r * r -> False.
Proof.
  intros Y X C [U|U] B O1 O2 O3; [|lia].
  pose proof (Z.mul_le_mono_nonneg (x + 1) a (x + 1) a ltac:(lia) ltac:(lia) ltac:(lia) ltac:(lia)).
  pose proof (Z.mul_le_mono_nonneg y b y b ltac:(lia) ltac:(lia) ltac:(lia) ltac:(lia)). lia.
Qed.

Lemma circle_loop_spec r : 2 <= r -> r <= 16383 -> forall n x y,
  0 <= y -> 0 <= x + 1 -> x <= r - 1 -> x - y < Z.of_nat n ->
  ((x + 1) * (x + 1) + y * y > r * r \/ x = r - 1) -> (y <= x -> x * x + y * y <= r * r) ->
  exists l, circle_loop n (2 * r) x y (1 + 2 * (r - 1 - x)) (1 + 2 * y) (x * x + y * y - r * r) = Some l /\
    forall a b, In (a, b) l <-> y <= b /\ octant r a b.
Proof.
  intros R1 R2. induction n as [|n IH]; intros x y Y X XR Fuel Up In_.
  - cbn [circle_loop]. destruct (y <=? x) eqn:C; [apply Z.leb_le in C; lia|]. apply Z.leb_gt in C.
    exists []. split; [reflexivity|]. intros a b. split; [intros []|]. intros [B (O1 & O2 & O3 & O4)]. exfalso. exact (no_more r x y a b Y X C Up B O1 O2 O3).
  - cbn [circle_loop]. destruct (y <=? x) eqn:C; [apply Z.leb_le in C|apply Z.leb_gt in C].
    2:{ exists []. split; [reflexivity|]. intros a b. split; [intros []|]. intros [B (O1 & O2 & O3 & O4)]. exfalso. exact (no_more r x y a b Y X C Up B O1 O2 O3). }
    specialize (In_ C).
    destruct (x * x + y * y - r * r <=? 0) eqn:E; [|apply Z.leb_gt in E; lia]. clear E.
    assert (Lo : x * x + y * y - r * r >= - 2 * r) by (destruct Up; nia).
    rewrite !(to_i16_id (y + 1)), !(to_i16_id (1 + 2 * y + 2)), !(to_i16_id (x * x + y * y - r * r + (1 + 2 * y)))
      by (unfold is16; lia).
    assert (Here : octant r x y) by (unfold octant; repeat split; try lia; exact Up).
    assert (Unique : forall a, octant r a y -> a = x).
    { intros a (O1 & O2 & O3 & O4). destruct (Z.lt_trichotomy a x) as [L|[L|L]]; [exfalso|exact L|exfalso].
      - destruct O4; nia.
      - destruct Up; nia. }
    assert (Split : forall l, (forall a b, In (a, b) l <-> y + 1 <= b /\ octant r a b) ->
              forall a b, In (a, b) ((x, y) :: l) <-> y <= b /\ octant r a b).
    { intros l H a b. cbn [In]. rewrite H. split.
      - intros [Eq|[B O]]; [apply pair_equal_spec in Eq; destruct Eq; subst; split; [lia|exact Here]|split; [lia|exact O]].
      - intros [B O]. destruct (Z.eq_dec b y) as [->|N]; [left; rewrite (Unique a O); reflexivity|right; split; [lia|exact O]]. }
    destruct (0 <? x * x + y * y - r * r + (1 + 2 * y)) eqn:D; [apply Z.ltb_lt in D|apply Z.ltb_ge in D].
    + rewrite !(to_i16_id (1 + 2 * (r - 1 - x) + 2)) by (unfold is16; lia).
      rewrite !(to_i16_id (1 + 2 * (r - 1 - x) + 2 - 2 * r)) by (unfold is16; lia).
      rewrite !(to_i16_id (x - 1)), to_i16_id by (unfold is16; lia).
      destruct (IH (x - 1) (y + 1)) as (l & L1 & L2); try lia; try nia.
      replace (1 + 2 * (r - 1 - x) + 2) with (1 + 2 * (r - 1 - (x - 1))) by lia.
      replace (1 + 2 * y + 2) with (1 + 2 * (y + 1)) by lia.
      replace (x * x + y * y - r * r + (1 + 2 * y) + (1 + 2 * (r - 1 - (x - 1)) - 2 * r))
        with ((x - 1) * (x - 1) + (y + 1) * (y + 1) - r * r) by ring.
      rewrite L1. exists ((x, y) :: l). split; [reflexivity|]. apply Split, L2.
    + destruct (IH x (y + 1)) as (l & L1 & L2); try lia; try nia.
      replace (1 + 2 * y + 2) with (1 + 2 * (y + 1)) by lia.
      replace (x * x + y * y - r * r + (1 + 2 * y)) with (x * x + (y + 1) * (y + 1) - r * r) by ring.
      rewrite L1. exists ((x, y) :: l). split; [reflexivity|]. apply Split, L2.
Qed.

Lemma circle_steps_spec r : 2 <= r -> r <= 16383 ->
  exists l, circle_steps r = Ok (Some l) /\ forall a b, In (a, b) l <-> octant r a b.
Proof.
  intros R1 R2. unfold circle_steps. destruct (32767 <? 2 * r) eqn:E; [apply Z.ltb_lt in E; lia|].
  destruct (circle_loop_spec r R1 R2 (Z.to_nat r) (r - 1) 0) as (l & L1 & L2); try lia.
  replace (1 + 2 * (r - 1 - (r - 1))) with 1 in L1 by lia. replace (1 + 2 * 0) with 1 in L1 by lia.
  replace ((r - 1) * (r - 1) + 0 * 0 - r * r) with (1 - 2 * r) in L1 by ring.
  exists l. rewrite L1. split; [reflexivity|]. intros a b. rewrite L2. unfold octant. split; [intros [_ H]; exact H|].
  intros H. split; [lia|exact H].
Qed.

Lemma octant_bounds r a b : octant r a b -> 0 <= a < r /\ 0 <= b < r.
Proof. unfold octant. lia. Qed.

Lemma eight_in c s p r : circle_fits c r -> octant r (fst s) (snd s) ->
  (In p (eight c s) <->
   exists dx dy, p = (fst c + dx, snd c + dy) /\
     (Z.abs dx = fst s /\ Z.abs dy = snd s \/ Z.abs dx = snd s /\ Z.abs dy = fst s)).
Proof.
  destruct c as [cx cy], s as [x y]. unfold circle_fits. cbn [fst snd]. intros (F1 & F2 & F3 & F4) O.
  apply octant_bounds in O. unfold is16 in *. unfold eight. cbn [map In].
  rewrite !to_i16_id by (unfold is16; lia). split.
  - intros H. exists (fst p - cx), (snd p - cy).
    repeat (destruct H as [H|H]; [subst p; cbn [fst snd]; split; [f_equal; lia|lia]|]). contradiction.
  - intros (dx & dy & -> & H).
    assert (D : (dx = x \/ dx = - x) /\ (dy = y \/ dy = - y) \/ (dx = y \/ dx = - y) /\ (dy = x \/ dy = - x)) by lia.
    destruct D as [[[E1|E1] [E2|E2]]|[[E1|E1] [E2|E2]]]; subst dx dy; rewrite ?Z.add_opp_r; auto 10.
Qed.

Lemma on_circle_octant r dx dy :
  on_circle r dx dy <-> octant r (Z.max (Z.abs dx) (Z.abs dy)) (Z.min (Z.abs dx) (Z.abs dy)).
Proof. unfold on_circle, octant. cbn zeta. split; [intros (A & B & C)|intros (_ & A & B & C)]; repeat split; auto; lia. Qed.

Lemma draw_circle_in c r : 2 <= r -> r <= 16383 -> circle_fits c r ->
  exists l, draw_circle c r = Ok (Some l) /\ forall p, In p l <-> on_circle r (fst p - fst c) (snd p - snd c).
Proof.
  intros R1 R2 F. unfold draw_circle. destruct (r =? 0) eqn:E0; [apply Z.eqb_eq in E0; lia|].
  destruct (r =? 1) eqn:E1; [apply Z.eqb_eq in E1; lia|].
  destruct (circle_steps_spec r R1 R2) as (l & -> & L). cbn [option_map].
  exists (flat_map (eight c) l). split; [reflexivity|]. intros p. rewrite in_flat_map, on_circle_octant. split.
  - intros ([a b] & A & B). apply L in A. apply (eight_in c (a, b) p r F A) in B. destruct B as (dx & dy & -> & B).
    cbn [fst snd] in *. replace (fst c + dx - fst c) with dx by lia. replace (snd c + dy - snd c) with dy by lia.
    assert (Z.max (Z.abs dx) (Z.abs dy) = a) as -> by (unfold octant in A; lia).
    assert (Z.min (Z.abs dx) (Z.abs dy) = b) as -> by (unfold octant in A; lia). exact A.
  - intros O. set (dx := fst p - fst c) in *. set (dy := snd p - snd c) in *.
    exists (Z.max (Z.abs dx) (Z.abs dy), Z.min (Z.abs dx) (Z.abs dy)). split; [apply L, O|].
    apply (eight_in c (Z.max (Z.abs dx) (Z.abs dy), Z.min (Z.abs dx) (Z.abs dy)) p r F O). exists dx, dy. cbn [fst snd]. unfold dx, dy. destruct p as [px py]. cbn [fst snd].
    split; [f_equal; lia|]. lia.
Qed.

Lemma four_lines_in c s p r : circle_fits c r -> octant r (fst s) (snd s) ->
  (In p (four_lines c s) <->
   Z.abs (fst p - fst c) = fst s /\ Z.abs (snd p - snd c) <= snd s \/
   Z.abs (fst p - fst c) = snd s /\ Z.abs (snd p - snd c) <= fst s).
Proof.
  destruct c as [cx cy], s as [x y]. unfold circle_fits. cbn [fst snd]. intros (F1 & F2 & F3 & F4) O.
  apply octant_bounds in O. unfold is16 in *. unfold four_lines.
  rewrite !to_i16_id by (unfold is16; lia). rewrite !in_app_iff.
  rewrite !draw_vertical by (unfold is16; lia). lia.
Qed.

Lemma highest r a : forall n b, 0 <= b <= a -> a * a + b * b <= r * r -> (Z.to_nat (a - b) <= n)%nat ->
  exists t, b <= t <= a /\ a * a + t * t <= r * r /\ (t = a \/ a * a + (t + 1) * (t + 1) > r * r).
Proof.
  induction n as [|n IH]; intros b B D L.
  - exists b. repeat split; try lia.
  - destruct (Z_le_gt_dec (a * a + (b + 1) * (b + 1)) (r * r)) as [Le|Gt].
    + destruct (Z.eq_dec b a) as [->|N]; [exists a; repeat split; try lia; auto|].
      destruct (IH (b + 1)) as (t & T1 & T2 & T3); try lia. exists t. repeat split; auto; lia.
    + exists b. repeat split; auto; lia.
Qed.

(** The rightmost column of a row. *)
Lemma widest r b : forall n a, 0 <= a < r -> a * a + b * b <= r * r -> (Z.to_nat (r - a) <= n)%nat ->
  exists x, a <= x < r /\ x * x + b * b <= r * r /\ (x = r - 1 \/ (x + 1) * (x + 1) + b * b > r * r).
Proof.
  induction n as [|n IH]; intros a B D L; [lia|].
  destruct (Z_le_gt_dec ((a + 1) * (a + 1) + b * b) (r * r)) as [Le|Gt].
  - destruct (Z.eq_dec a (r - 1)) as [->|N]; [exists (r - 1); repeat split; auto; lia|].
    destruct (IH (a + 1)) as (t & T1 & T2 & T3); try lia. exists t. repeat split; auto; lia.
  - exists a. repeat split; auto; lia.
Qed.

Lemma disc_octant r dx dy :
  in_disc r dx dy <->
  exists x y, octant r x y /\ (Z.abs dx = x /\ Z.abs dy <= y \/ Z.abs dx = y /\ Z.abs dy <= x).
Proof.
  unfold in_disc. split.
  - intros (A & B & C). set (a := Z.abs dx) in *. set (b := Z.abs dy) in *.
    assert (D : a * a + b * b <= r * r) by (unfold a, b; rewrite !Z.abs_square; exact C).
    assert (P : 0 <= a /\ 0 <= b) by (unfold a, b; lia). clearbody a b. clear C dx dy.
    destruct (Z_le_gt_dec a b) as [Le|Gt].
    + destruct (widest r a (Z.to_nat (r - b)) b) as (x & X1 & X2 & X3); try lia.
      exists x, a. split; [|lia]. unfold octant. repeat split; try lia; tauto.
    + destruct (highest r a (Z.to_nat (a - b)) b) as (t & T1 & T2 & T3); try lia.
      destruct (widest r t (Z.to_nat (r - a)) a) as (x & X1 & X2 & X3); try lia.
      destruct (Z.eq_dec x a) as [->|N].
      * exists a, t. split; [|lia]. unfold octant. repeat split; try lia; tauto.
      * destruct T3 as [->|T3].
        -- exists x, a. split; [|lia]. unfold octant. repeat split; try lia; tauto.
        -- exfalso. assert (a + 1 <= x) by lia. nia.
  - intros (x & y & (O1 & O2 & O3 & O4) & H).
    assert (D : Z.abs dx * Z.abs dx + Z.abs dy * Z.abs dy <= r * r).
    { destruct H as [[-> H]|[-> H]]; assert (0 <= Z.abs dy) by lia; nia. }
    rewrite !Z.abs_square in D. lia.
Qed.

Lemma draw_circle_filled_in c r : 2 <= r -> r <= 16383 -> circle_fits c r ->
  exists l, draw_circle_filled c r = Ok (Some l) /\ forall p, In p l <-> in_disc r (fst p - fst c) (snd p - snd c).
Proof.
  intros R1 R2 F. unfold draw_circle_filled. destruct (r =? 0) eqn:E0; [apply Z.eqb_eq in E0; lia|].
  destruct (r =? 1) eqn:E1; [apply Z.eqb_eq in E1; lia|].
  destruct (circle_steps_spec r R1 R2) as (l & -> & L). cbn [option_map].
  exists (flat_map (four_lines c) l). split; [reflexivity|]. intros p. rewrite in_flat_map, disc_octant. split.
  - intros ([a b] & A & B). apply L in A. apply (four_lines_in c (a, b) p r F A) in B. exists a, b. auto.
  - intros (a & b & O & H). exists (a, b). split; [apply L, O|]. apply (four_lines_in c (a, b) p r F O). exact H.
Qed.

(** * Polygons *)

Lemma quot_within n d w : (0 <= n < d \/ d < n <= 0) -> between 0 w (Z.quot (n * w) d).
Proof.
  assert (Pos : forall n d w, 0 <= n < d -> 0 <= w -> 0 <= Z.quot (n * w) d <= w).
  { clear. intros n d w H W. rewrite Z.quot_div_nonneg by nia. split; [apply Z.div_pos; nia|].
    apply Z.div_le_upper_bound; nia. }
  assert (Pos2 : forall n d w, 0 <= n < d -> between 0 w (Z.quot (n * w) d)).
  { intros n' d' w' H. destruct (Z_le_gt_dec 0 w') as [W|W].
    - pose proof (Pos n' d' w' H W). unfold between. lia.
    - pose proof (Pos n' d' (- w') H ltac:(lia)) as P. rewrite Z.mul_opp_r, Z.quot_opp_l in P by lia.
      unfold between. lia. }
  intros [H|H]; [apply Pos2, H|].
  pose proof (Pos2 (- n) (- d) w ltac:(lia)) as P. rewrite Z.mul_opp_l, Z.quot_opp_opp in P by lia. exact P.
Qed.

Lemma crosses_range y e : crosses y e = true ->
  0 <= y - snd (fst e) < snd (snd e) - snd (fst e) \/ snd (snd e) - snd (fst e) < y - snd (fst e) <= 0 \/
  (y - snd (fst e) < 0 /\ snd (snd e) - snd (fst e) <= y - snd (fst e)).
Proof.
  unfold crosses. destruct (snd (fst e) <=? y) eqn:A, (snd (snd e) <=? y) eqn:B; try discriminate; intros _;
    apply Z.leb_le in A || apply Z.leb_gt in A; apply Z.leb_le in B || apply Z.leb_gt in B; lia.
Qed.

Lemma quot_whole d w : d <> 0 -> Z.quot (d * w) d = w.
Proof. intros H. rewrite Z.mul_comm. apply Z.quot_mul, H. Qed.

Lemma crossing_within y e : crosses y e = true -> between (fst (fst e)) (fst (snd e)) (crossing y e).
Proof.
  intros H. apply crosses_range in H. destruct e as [[x1 y1] [x2 y2]]. cbn [fst snd] in *. unfold crossing.
  assert (B : between 0 (x2 - x1) (Z.quot ((y - y1) * (x2 - x1)) (y2 - y1))).
  { destruct (Z.eq_dec (y - y1) (y2 - y1)) as [->|N].
    - rewrite quot_whole by lia. unfold between. lia.
    - apply quot_within. lia. }
  unfold between in *. lia.
Qed.

Lemma edge_intersection_spec y p q : small p -> small q ->
  edge_intersection y p q = if crosses y (p, q) then Some (crossing y (p, q)) else None.
Proof.
  destruct p as [x1 y1], q as [x2 y2]. unfold small. cbn [fst snd]. intros P Q. unfold edge_intersection.
  match goal with |- context [crosses y ?e] => destruct (crosses y e) eqn:C end.
  - pose proof (crossing_within _ _ C) as W. pose proof (crosses_range _ _ C) as R. cbn [fst snd] in *.
    destruct (y1 =? y2) eqn:E; [apply Z.eqb_eq in E; lia|].
    destruct (y <? Z.min y1 y2) eqn:E1; [apply Z.ltb_lt in E1; lia|].
    destruct (Z.max y1 y2 <=? y) eqn:E2.
    { apply Z.leb_le in E2. unfold crosses in C. cbn [fst snd] in C.
      rewrite (proj2 (Z.leb_le y1 y)), (proj2 (Z.leb_le y2 y)) in C by lia. discriminate. }
    cbn [orb]. rewrite (to_i32_id ((y - y1) * (x2 - x1))) by nia.
    unfold crossing, between in *. rewrite to_i32_id by lia. reflexivity.
  - unfold crosses in C. cbn [fst snd] in C. destruct (y1 =? y2) eqn:E; [reflexivity|].
    destruct (y <? Z.min y1 y2) eqn:E1; [reflexivity|]. destruct (Z.max y1 y2 <=? y) eqn:E2; [reflexivity|].
    exfalso. apply Z.eqb_neq in E. apply Z.ltb_ge in E1. apply Z.leb_gt in E2.
    destruct (y1 <=? y) eqn:A, (y2 <=? y) eqn:B; try discriminate;
      apply Z.leb_le in A || apply Z.leb_gt in A; apply Z.leb_le in B || apply Z.leb_gt in B; lia.
Qed.

Lemma crossings_spec y first points : small first -> Forall small points ->
  crossings y first points = map (crossing y) (filter (crosses y) (combine points (tl points ++ [first]))).
Proof.
  intros F H. induction H as [|p rest P H IH]; [reflexivity|]. cbn [crossings tl].
  destruct rest as [|q rest].
  - cbn [app combine filter]. rewrite edge_intersection_spec by assumption.
    destruct (crosses y (p, first)); reflexivity.
  - cbn [app combine filter] in *. inversion H; subst. rewrite edge_intersection_spec by assumption. rewrite IH.
    cbn [tl app]. destruct (crosses y (p, q)); reflexivity.
Qed.

Lemma edges_cons p rest : edges (p :: rest) = combine (p :: rest) (tl (p :: rest) ++ [p]).
Proof. reflexivity. Qed.

Lemma crossings_columns y p rest : Forall small (p :: rest) ->
  crossings y p (p :: rest) = columns (p :: rest) y.
Proof. intros H. unfold columns. rewrite edges_cons. apply crossings_spec; [inversion H; assumption|exact H]. Qed.

Lemma crossing_parity y first : forall p rest,
  Nat.odd (length (filter (crosses y) (combine (p :: rest) (rest ++ [first])))) =
  negb (Bool.eqb (snd p <=? y) (snd first <=? y)).
Proof.
  intros p rest. revert p. induction rest as [|q rest IH]; intros p.
  - cbn [app combine filter]. unfold crosses. cbn [fst snd]. destruct (negb _); reflexivity.
  - change (combine (p :: q :: rest) ((q :: rest) ++ [first])) with ((p, q) :: combine (q :: rest) (rest ++ [first])).
    cbn [filter]. specialize (IH q). unfold crosses at 1. cbn [fst snd].
    destruct (snd p <=? y), (snd q <=? y), (snd first <=? y); cbn [Bool.eqb negb length] in *;
      rewrite ?Nat.odd_succ, <- ?Nat.negb_odd, ?IH; reflexivity.
Qed.

Lemma columns_even points y : Nat.odd (length (columns points y)) = false.
Proof.
  destruct points as [|p rest]; [reflexivity|]. unfold columns. rewrite map_length, edges_cons. cbn [tl].
  rewrite crossing_parity. destruct (snd p <=? y); reflexivity.
Qed.

Lemma columns_within points y x : Forall small points -> In x (columns points y) -> -16383 <= x <= 16383.
Proof.
  intros H. unfold columns. rewrite in_map_iff. intros ([a b] & <- & I). apply filter_In in I. destruct I as [I C].
  destruct points as [|p rest]; [destruct I|]. rewrite edges_cons in I.
  pose proof (in_combine_l _ _ _ _ I) as A. pose proof (in_combine_r _ _ _ _ I) as B.
  apply crossing_within in C. cbn [fst snd] in C. rewrite Forall_forall in H.
  assert (Sa := H a A). assert (Sb : small b).
  { apply H. cbn [tl] in B. apply in_app_iff in B. destruct B as [B|[<-|[]]]; [right; exact B|left; reflexivity]. }
  unfold small, between in *. lia.
Qed.

Lemma columns_outside points y lo hi : (forall p, In p points -> lo <= snd p <= hi) -> y < lo \/ hi < y ->
  columns points y = [].
Proof.
  intros H O. unfold columns. replace (filter (crosses y) (edges points)) with (@nil (point * point)); [reflexivity|].
  symmetry. destruct (filter (crosses y) (edges points)) as [|[a b] l] eqn:E; [reflexivity|]. exfalso.
  assert (I : In (a, b) (filter (crosses y) (edges points))) by (rewrite E; left; reflexivity).
  apply filter_In in I. destruct I as [I C]. destruct points as [|p rest]; [destruct I|]. rewrite edges_cons in I.
  pose proof (in_combine_l _ _ _ _ I) as A. pose proof (in_combine_r _ _ _ _ I) as B.
  assert (Sb : In b (p :: rest)).
  { cbn [tl] in B. apply in_app_iff in B. destruct B as [B|[<-|[]]]; [right; exact B|left; reflexivity]. }
  apply H in A. apply H in Sb. apply crosses_range in C. unfold crosses in C. cbn [fst snd] in *. lia.
Qed.

(** ** Sorting *)

Lemma insert_z_in x l z : In z (insert_z x l) <-> z = x \/ In z l.
Proof.
  induction l as [|y l IH]; cbn [insert_z]; [cbn; intuition|].
  destruct (x <=? y); cbn [In]; rewrite ?IH; intuition.
Qed.

Lemma insert_z_count x l f :
  length (filter f (insert_z x l)) = ((if f x then 1 else 0) + length (filter f l))%nat.
Proof.
  induction l as [|y l IH]; cbn [insert_z]; [cbn [filter]; destruct (f x); reflexivity|].
  destruct (x <=? y); cbn [filter]; [destruct (f x); reflexivity|].
  destruct (f y); cbn [length]; rewrite IH; lia.
Qed.

Fixpoint ascending (l : list Z) : Prop :=
  match l with [] => True | x :: r => (forall z, In z r -> x <= z) /\ ascending r end.

Lemma insert_z_ascending x l : ascending l -> ascending (insert_z x l).
Proof.
  induction l as [|y l IH]; intros H; [cbn; intuition|]. destruct H as [H1 H2]. cbn [insert_z].
  destruct (x <=? y) eqn:E; [apply Z.leb_le in E|apply Z.leb_gt in E].
  - cbn [ascending]. split; [|split; assumption]. intros z [->|Z]; [exact E|]. apply H1 in Z. lia.
  - cbn [ascending]. split; [|apply IH, H2]. intros z Z. apply insert_z_in in Z. destruct Z as [->|Z]; [lia|]. apply H1, Z.
Qed.

Lemma sort_z_in l z : In z (sort_z l) <-> In z l.
Proof. induction l as [|x l IH]; [reflexivity|]. cbn [sort_z fold_right]. rewrite insert_z_in. fold (sort_z l). rewrite IH. cbn [In]. intuition. Qed.

Lemma sort_z_count l f : length (filter f (sort_z l)) = length (filter f l).
Proof.
  induction l as [|x l IH]; [reflexivity|]. cbn [sort_z fold_right filter]. rewrite insert_z_count. fold (sort_z l).
  rewrite IH. destruct (f x); reflexivity.
Qed.

Lemma sort_z_length l : length (sort_z l) = length l.
Proof.
  pose proof (sort_z_count l (fun _ => true)) as H.
  assert (F : forall w : list Z, filter (fun _ => true) w = w) by (induction w; cbn; congruence). rewrite !F in H. exact H.
Qed.

Lemma sort_z_ascending l : ascending (sort_z l).
Proof. induction l as [|x l IH]; [exact I|]. apply insert_z_ascending, IH. Qed.

Lemma clamp_id z : is16 z -> clamp_i16 z = z.
Proof.
  unfold is16, clamp_i16. intros H. destruct (z <? -32768) eqn:A; [apply Z.ltb_lt in A; lia|].
  destruct (32767 <? z) eqn:B; [apply Z.ltb_lt in B; lia|apply to_i16_id; exact H].
Qed.

Lemma count_none l x : (forall z, In z l -> x < z) -> filter (fun z => z <=? x) l = [].
Proof.
  induction l as [|y l IH]; intros H; [reflexivity|]. cbn [filter].
  destruct (y <=? x) eqn:E; [apply Z.leb_le in E; specialize (H y (or_introl eq_refl)); lia|].
  apply IH. intros z Z. apply H. right. exact Z.
Qed.

Lemma spans_in y p : is16 y -> forall n xs, (length xs <= n)%nat -> ascending xs -> Nat.odd (length xs) = false ->
  (forall x, In x xs -> is16 x) ->
  (In p (spans y xs) <-> snd p = y /\
    (In (fst p) xs \/ Nat.odd (length (filter (fun x => x <=? fst p) xs)) = true)).
Proof.
  intros Y. induction n as [|n IH]; intros xs L A O R.
  - destruct xs as [|x xs]; [|cbn in L; lia]. cbn. split; [intros []|intros [_ [[]|H]]; discriminate].
  - destruct xs as [|a [|b xs]]; [cbn; split; [intros []|intros [_ [[]|H]]; discriminate]|discriminate|].
    cbn [spans]. rewrite in_app_iff, !clamp_id by (auto; apply R; cbn; auto).
    destruct A as [A1 [A2 A3]]. assert (AB : a <= b) by (apply A1; left; reflexivity).
    rewrite draw_horizontal by (auto; apply R; cbn; auto).
    rewrite IH; [|cbn in L; lia|exact A3|exact O|intros x X; apply R; right; right; exact X].
    destruct p as [px py]. cbn [fst snd]. cbn [In filter].
    destruct (Z_lt_ge_dec px a) as [C1|C1].
    { assert (Hx : forall z, In z xs -> px < z) by (intros z Z; pose proof (A1 z (or_intror Z)); lia).
      rewrite (count_none xs px Hx).
      rewrite (proj2 (Z.leb_gt a px)), (proj2 (Z.leb_gt b px)) by lia.
      split; [intros [H|[H [H'|H']]]|intros [H [[H'|[H'|H']]|H']]]; try discriminate; try lia;
        apply Hx in H'; lia. }
    rewrite (proj2 (Z.leb_le a px)) by lia.
    destruct (Z_lt_ge_dec px b) as [C2|C2].
    { assert (Hx : forall z, In z xs -> px < z) by (intros z Z; pose proof (A2 z Z); lia).
      rewrite (count_none xs px Hx). rewrite (proj2 (Z.leb_gt b px)) by lia. cbn [length].
      split; [intros [H|[H _]]|intros [H _]]; [split; [lia|right; reflexivity]|split; [lia|right; reflexivity]|left; lia]. }
    rewrite (proj2 (Z.leb_le b px)) by lia. cbn [length]. rewrite Nat.odd_succ, Nat.even_succ.
    split.
    + intros [[-> H]|[-> H]]; (split; [reflexivity|]); [left; right; left; lia|tauto].
    + intros [-> [[H|[H|H]]|H]]; try (right; split; [reflexivity|tauto]); left; lia.
Qed.

Lemma fill_rows_in points : forall n y p, In p (fill_rows n y points) <->
  exists t, y <= t < y + Z.of_nat n /\
    In p (match points with [] => [] | q :: _ => spans t (sort_z (crossings t q points)) end).
Proof.
  induction n as [|n IH]; intros y p; cbn [fill_rows].
  - split; [intros []|intros (t & T & _); lia].
  - rewrite in_app_iff, IH. split.
    + intros [H|(t & T & H)]; [exists y; split; [lia|exact H]|exists t; split; [lia|exact H]].
    + intros (t & T & H). destruct (Z.eq_dec t y) as [->|N]; [left; exact H|right; exists t; split; [lia|exact H]].
Qed.

Lemma fold_min_spec rest : forall y (P : Z -> Prop), P y -> (forall q, In q rest -> P (snd q)) ->
  let m := fold_left (fun m (q : point) => Z.min m (snd q)) rest y in
  P m /\ m <= y /\ forall q, In q rest -> m <= snd q.
Proof.
  induction rest as [|a rest IH]; intros y P Py H; cbn [fold_left]; [repeat split; auto; [lia|intros q []]|].
  specialize (IH (Z.min y (snd a)) P). cbn zeta in *.
  destruct IH as (I1 & I2 & I3).
  { destruct (Z.min_spec y (snd a)) as [[_ ->]|[_ ->]]; [exact Py|]. apply H. left. reflexivity. }
  { intros q Q. apply H. right. exact Q. }
  repeat split; [exact I1|lia|]. intros q [->|Q]; [lia|]. apply I3, Q.
Qed.

Lemma fold_max_spec rest : forall y (P : Z -> Prop), P y -> (forall q, In q rest -> P (snd q)) ->
  let m := fold_left (fun m (q : point) => Z.max m (snd q)) rest y in
  P m /\ y <= m /\ forall q, In q rest -> snd q <= m.
Proof.
  induction rest as [|a rest IH]; intros y P Py H; cbn [fold_left]; [repeat split; auto; [lia|intros q []]|].
  specialize (IH (Z.max y (snd a)) P). cbn zeta in *.
  destruct IH as (I1 & I2 & I3).
  { destruct (Z.max_spec y (snd a)) as [[_ ->]|[_ ->]]; [|exact Py]. apply H. left. reflexivity. }
  { intros q Q. apply H. right. exact Q. }
  repeat split; [exact I1|lia|]. intros q [->|Q]; [lia|]. apply I3, Q.
Qed.

Lemma fill_polygon_in points p : Forall small points -> (In p (fill_polygon points) <-> inside points p).
Proof.
  intros H. destruct points as [|[x y] rest].
  - cbn. split; [intros []|intros [[]|X]; discriminate].
  - unfold fill_polygon. set (P := fun z => -16383 <= z <= 16383).
    assert (Sm : forall q, In q ((x, y) :: rest) -> P (snd q)).
    { intros q Q. rewrite Forall_forall in H. apply H in Q. unfold small, P in *. lia. }
    destruct (fold_min_spec rest y P (Sm _ (or_introl eq_refl)) (fun q Q => Sm q (or_intror Q))) as (A1 & A2 & A3).
    destruct (fold_max_spec rest y P (Sm _ (or_introl eq_refl)) (fun q Q => Sm q (or_intror Q))) as (B1 & B2 & B3).
    cbn zeta in *. set (lo := fold_left _ rest y) in *. set (hi := fold_left _ rest y) in B1, B2, B3 |- *.
    change (In p (fill_rows (Z.to_nat (hi + 1 - lo)) lo ((x, y) :: rest)) <-> inside ((x, y) :: rest) p).
    rewrite fill_rows_in.
    assert (Row : forall t, -16383 <= t <= 16383 ->
              (In p (spans t (sort_z (crossings t (x, y) ((x, y) :: rest)))) <->
               snd p = t /\ inside ((x, y) :: rest) p)).
    { intros t T. rewrite crossings_columns by exact H.
      rewrite (spans_in t p ltac:(unfold is16; lia) _ _ (Nat.le_refl _) (sort_z_ascending _)).
      - rewrite sort_z_in, sort_z_count. unfold inside. cbn zeta. split; intros [<- X]; (split; [reflexivity|exact X]).
      - rewrite sort_z_length. apply columns_even.
      - intros z Z. apply -> sort_z_in in Z. apply columns_within in Z; [|exact H]. unfold is16. lia. }
    split.
    + intros (t & T & I). apply Row in I; [apply I|]. unfold P in *. lia.
    + intros I. exists (snd p).
      assert (Range : lo <= snd p <= hi).
      { destruct (Z_lt_ge_dec (snd p) lo) as [C|C]; [|destruct (Z_lt_ge_dec hi (snd p)) as [D|D]; [|lia]]; exfalso;
          (assert (E : columns ((x, y) :: rest) (snd p) = [])
             by (apply columns_outside with (lo := lo) (hi := hi); [|lia];
                 intros q [<-|Q]; [cbn [snd]; lia|apply A3 in Q as Q1; apply B3 in Q as Q2; lia]));
          unfold inside in I; rewrite E in I; destruct I as [[]|I]; discriminate. }
      split; [lia|]. apply Row; [unfold P in *; lia|]. split; [reflexivity|exact I].
Qed.

Lemma draw_path_in p : forall points first, points <> [] ->
  (In p (draw_path points ++ draw_line (last points first) first) <->
   exists e, In e (combine points (tl points ++ [first])) /\ In p (draw_line (fst e) (snd e))).
Proof.
  induction points as [|a [|b rest] IH]; intros first N; [congruence| |].
  - cbn. split.
    + intros H. exists (a, first). auto.
    + intros (e & [<-|[]] & H). exact H.
  - specialize (IH first ltac:(discriminate)).
    change (draw_path (a :: b :: rest)) with (draw_line a b ++ draw_path (b :: rest)).
    change (last (a :: b :: rest) first) with (last (b :: rest) first).
    change (combine (a :: b :: rest) (tl (a :: b :: rest) ++ [first]))
      with ((a, b) :: combine (b :: rest) (tl (b :: rest) ++ [first])).
    rewrite <- app_assoc, in_app_iff, IH. cbn [In]. split.
    + intros [H|(e & E & H)]; [exists (a, b)|exists e]; auto.
    + intros (e & [<-|E] & H); [left; exact H|right; exists e; auto].
Qed.

Lemma last_indep {A} (l : list A) a d e : last (a :: l) d = last (a :: l) e.
Proof. revert a. induction l as [|b l IH]; intros a; [reflexivity|]. apply (IH b). Qed.

Lemma draw_poly_in p points : (2 <= length points)%nat ->
  (In p (draw_poly points) <-> exists a b, In (a, b) (edges points) /\ In p (draw_line a b)).
Proof.
  intros L. destruct points as [|a [|b rest]]; cbn in L; try lia. unfold draw_poly.
  rewrite (draw_path_in p (a :: b :: rest) a ltac:(discriminate)). rewrite edges_cons. split.
  - intros ([x y] & E & H). exists x, y. auto.
  - intros (x & y & E & H). exists (x, y). auto.
Qed.

(** * Rectangles *)

Lemma draw_rect_in x y w h p : is16 x -> is16 y -> 1 <= w <= 65535 -> 1 <= h <= 65535 ->
  is16 (x + w - 1) -> is16 (y + h - 1) ->
  (In p (draw_rect (x, y) w h) <-> on_border (x, y) (x + w - 1, y + h - 1) p).
Proof.
  intros X Y W H X2 Y2. unfold draw_rect, to_u16. rewrite !Z.mod_small by lia.
  replace (x + (w - 1)) with (x + w - 1) by lia. replace (y + (h - 1)) with (y + h - 1) by lia.
  rewrite !clamp_id by assumption.
  rewrite (draw_line_comm (x + w - 1, y + h - 1) (x, y + h - 1)), (draw_line_comm (x, y + h - 1) (x, y))
    by (split; assumption).
  rewrite !in_app_iff, !draw_horizontal, !draw_vertical by (auto; lia).
  unfold on_border, in_box, between. destruct p as [px py]. cbn [fst snd]. lia.
Qed.

(** * Text *)

Lemma draw_char_in f px py c p :
  (forall i, 0 <= i < 8 * Z.of_nat (f_stride f) -> is16 (px + i)) ->
  (forall j, 0 <= j < Z.of_nat (f_height f) -> is16 (py + j)) ->
  (In p (draw_char f (px, py) c) <->
   exists col row, dot f c col row /\ p = (px + Z.of_nat col, py + Z.of_nat row)).
Proof.
  intros Hx Hy. unfold draw_char. rewrite in_flat_map. split.
  - intros (j & J & H). apply in_seq in J. apply in_flat_map in H. destruct H as (k & K & H). apply in_seq in K.
    apply in_flat_map in H. destruct H as (i & Ii & H). apply in_seq in Ii.
    destruct ((i <? 8)%nat && N.testbit (glyph_byte f c (j * f_stride f + k)) (7 - N.of_nat i)) eqn:E; [|destruct H].
    apply andb_prop in E. destruct E as [E1 E2]. apply Nat.ltb_lt in E1. destruct H as [<-|[]].
    exists (8 * k + i)%nat, j. split.
    + split; [lia|]. exists k, i. repeat split; auto; lia.
    + rewrite !to_i16_id; [f_equal; lia|apply Hy; lia|].
      replace (px + Z.of_nat i + Z.of_nat k * 8) with (px + (Z.of_nat i + Z.of_nat k * 8)) by lia. apply Hx. nia.
  - intros (col & row & (R & k & i & K & I8 & Iw & -> & B) & ->). exists row. split; [apply in_seq; lia|].
    apply in_flat_map. exists k. split; [apply in_seq; lia|]. apply in_flat_map. exists i. split; [apply in_seq; lia|].
    rewrite (proj2 (Nat.ltb_lt i 8) I8), B. cbn [andb]. left.
    rewrite !to_i16_id; [f_equal; lia|apply Hy; lia|].
    replace (px + Z.of_nat i + Z.of_nat k * 8) with (px + (Z.of_nat i + Z.of_nat k * 8)) by lia. apply Hx. nia.
Qed.

Lemma draw_text_in f py p : (f_width f <= 8 * f_stride f)%nat ->
  (forall j, 0 <= j < Z.of_nat (f_height f) -> is16 (py + j)) -> forall text px,
  is16 px -> is16 (px + Z.of_nat (length text * f_width f + 8 * f_stride f)) ->
  (In p (draw_text f (px, py) text) <->
   exists n c col row, nth_error text n = Some c /\ dot f c col row /\
     p = (px + Z.of_nat (n * f_width f + col), py + Z.of_nat row)).
Proof.
  intros Wd Hy. induction text as [|c text IH]; intros px Lo Hi.
  - cbn. split; [intros []|]. intros ([|n] & c & col & row & H & _); discriminate.
  - cbn [draw_text length fst snd] in *. unfold is16 in Lo, Hi. rewrite in_app_iff.
    rewrite draw_char_in by (auto; intros i Ii; unfold is16; lia).
    rewrite (to_i16_id (px + _)) by (unfold is16; lia).
    rewrite IH by (unfold is16; lia). split.
    + intros [(col & row & D & ->)|(n & c' & col & row & E & D & ->)].
      * exists 0%nat, c, col, row. split; [reflexivity|split; [exact D|reflexivity]].
      * exists (S n), c', col, row. split; [exact E|split; [exact D|f_equal; lia]].
    + intros ([|n] & c' & col & row & E & D & ->).
      * left. cbn in E. assert (c = c') as -> by congruence. exists col, row. split; [exact D|]. reflexivity.
      * right. exists n, c', col, row. split; [exact E|split; [exact D|f_equal; lia]].
Qed.

(** * Shapes with no area *)

Lemma uneven_spec points : uneven points = true <-> exists p q, In p points /\ In q points /\ p <> q.
Proof.
  induction points as [|a [|b rest] IH].
  - cbn. split; [discriminate|intros (p & q & [] & _)].
  - cbn. split; [discriminate|intros (p & q & [<-|[]] & [<-|[]] & N); congruence].
  - change (uneven (a :: b :: rest)) with (negb (point_eqb a b) || uneven (b :: rest)).
    unfold point_eqb. destruct (fst a =? fst b) eqn:E1; [destruct (snd a =? snd b) eqn:E2|]; cbn [andb negb orb].
    + apply Z.eqb_eq in E1, E2. assert (a = b) as -> by (destruct a, b; cbn in *; congruence).
      rewrite IH. split; intros (p & q & P & Q & N); exists p, q; (repeat split; [| |exact N]).
      * right. exact P.
      * right. exact Q.
      * destruct P as [<-|P]; [left; reflexivity|exact P].
      * destruct Q as [<-|Q]; [left; reflexivity|exact Q].
    + split; [intros _|reflexivity]. exists a, b. apply Z.eqb_neq in E2. cbn. repeat split; auto. congruence.
    + split; [intros _|reflexivity]. exists a, b. apply Z.eqb_neq in E1. cbn. repeat split; auto. congruence.
Qed.

Lemma last_in {A} (a : A) l d : In (last (a :: l) d) (a :: l).
Proof. revert a. induction l as [|b l IH]; intros a; [left; reflexivity|]. right. apply IH. Qed.

Lemma poly_points_spec points : poly_points points = true <-> exists p q, In p points /\ In q points /\ p <> q.
Proof.
  unfold poly_points. rewrite orb_true_iff, uneven_spec. split; [|intros H; left; exact H].
  intros [H|H]; [exact H|]. destruct points as [|a [|b [|c rest]]]; try discriminate.
  exists a, (last (a :: b :: c :: rest) a). split; [left; reflexivity|]. split; [apply last_in|].
  intros E. rewrite <- E in H. unfold point_eqb in H. rewrite !Z.eqb_refl in H. discriminate.
Qed.

Lemma tri_points_spec p1 p2 p3 : tri_points p1 p2 p3 = true <-> ~ collinear p1 p2 p3.
Proof.
  destruct p1 as [x1 y1], p2 as [x2 y2], p3 as [x3 y3]. unfold tri_points. rewrite negb_true_iff, Z.eqb_neq.
  assert (X : (x2 - x1) * (y3 - y1) = (y2 - y1) * (x3 - x1) <-> collinear (x1, y1) (x2, y2) (x3, y3)); [|tauto].
  unfold collinear. split.
  - intros E. destruct (Z.eq_dec (x2 - x1) 0) as [A|A]; [destruct (Z.eq_dec (y2 - y1) 0) as [B|B]|].
    + destruct (Z.eq_dec (x3 - x1) 0) as [C|C].
      * exists 1, 0, x1. split; [lia|]. intros p [<-|[<-|[<-|[]]]]; cbn [fst snd]; lia.
      * exists (y3 - y1), (- (x3 - x1)), ((y3 - y1) * x1 - (x3 - x1) * y1). split; [lia|].
        intros p [<-|[<-|[<-|[]]]]; cbn [fst snd]; [lia| |lia].
        assert (x2 = x1) as -> by lia. assert (y2 = y1) as -> by lia. lia.
    + exists (y2 - y1), (- (x2 - x1)), ((y2 - y1) * x1 - (x2 - x1) * y1). split; [lia|].
      intros p [<-|[<-|[<-|[]]]]; cbn [fst snd]; lia.
    + exists (y2 - y1), (- (x2 - x1)), ((y2 - y1) * x1 - (x2 - x1) * y1). split; [lia|].
      intros p [<-|[<-|[<-|[]]]]; cbn [fst snd]; lia.
  - intros (a & b & c & N & H).
    pose proof (H (x1, y1) ltac:(cbn; auto)) as H1. pose proof (H (x2, y2) ltac:(cbn; auto)) as H2.
    pose proof (H (x3, y3) ltac:(cbn; auto)) as H3. cbn [fst snd] in *. clear H.
    set (k := (x2 - x1) * (y3 - y1) - (y2 - y1) * (x3 - x1)).
    assert (K1 : a * k = 0).
    { replace (a * k) with ((a * x2 + b * y2 - (a * x1 + b * y1)) * (y3 - y1) - (a * x3 + b * y3 - (a * x1 + b * y1)) * (y2 - y1))
        by (unfold k; ring). rewrite H1, H2, H3. ring. }
    assert (K2 : b * k = 0).
    { replace (b * k) with ((a * x3 + b * y3 - (a * x1 + b * y1)) * (x2 - x1) - (a * x2 + b * y2 - (a * x1 + b * y1)) * (x3 - x1))
        by (unfold k; ring). rewrite H1, H2, H3. ring. }
    assert (k = 0) by (destruct N as [N|N]; nia). unfold k in *. lia.
Qed.

Lemma rect_points_spec x1 y1 x2 y2 : is16 x1 -> is16 y1 -> is16 x2 -> is16 y2 ->
  rect_points (x1, y1) (x2, y2) =
  if (x1 =? x2) || (y1 =? y2) then None
  else Some ((Z.min x1 x2, Z.min y1 y2), Z.abs (x2 - x1), Z.abs (y2 - y1)).
Proof.
  unfold is16. intros A B C D. unfold rect_points.
  destruct (x1 <? x2) eqn:E1, (y1 <? y2) eqn:E2;
    (apply Z.ltb_lt in E1 || apply Z.ltb_ge in E1); (apply Z.ltb_lt in E2 || apply Z.ltb_ge in E2);
    rewrite !Z.min_l by lia;
    destruct (x1 =? x2) eqn:F1, (y1 =? y2) eqn:F2;
    (apply Z.eqb_eq in F1 || apply Z.eqb_neq in F1); (apply Z.eqb_eq in F2 || apply Z.eqb_neq in F2);
    match goal with |- (if ((?a =? 0) || (?b =? 0))%bool then _ else _) = _ =>
      destruct (a =? 0) eqn:G1; [apply Z.eqb_eq in G1|apply Z.eqb_neq in G1];
      (destruct (b =? 0) eqn:G2; [apply Z.eqb_eq in G2|apply Z.eqb_neq in G2]) end; cbn [orb]; try lia; try reflexivity;
    repeat f_equal; lia.
Qed.

(** * Rows *)

Lemma clamp_is16 z : is16 (clamp_i16 z).
Proof.
  unfold clamp_i16. destruct (32767 <? z) eqn:A; [unfold is16; lia|].
  destruct (z <? -32768) eqn:B; [unfold is16; lia|]. apply Z.ltb_ge in A, B.
  rewrite to_i16_id; unfold is16; lia.
Qed.

Lemma spans_row y p : forall n xs, (length xs <= n)%nat -> In p (spans y xs) -> snd p = clamp_i16 y.
Proof.
  induction n as [|n IH]; intros xs L H; [destruct xs; [destruct H|cbn in L; lia]|].
  destruct xs as [|a [|b xs]]; try destruct H. cbn [spans] in H. apply in_app_iff in H. destruct H as [H|H].
  - pose proof (clamp_is16 y) as Y.
    destruct (Z_le_gt_dec (clamp_i16 a) (clamp_i16 b)) as [Le|Gt].
    + apply draw_horizontal in H; try apply clamp_is16; [apply H|exact Le].
    + rewrite draw_line_comm in H by (split; apply clamp_is16).
      apply draw_horizontal in H; try apply clamp_is16; [apply H|lia].
  - apply (IH xs); [cbn in L; lia|exact H].
Qed.
