(** Lemmas about the buffered display. *)
From Verif Require Import Base Colors_Model Draw_Model Draw_Spec Draw_Proofs Lcd_Model Lcd_Spec.
Local Open Scope Z_scope.
Local Open Scope list_scope.

(** * Lists *)

Lemma range_in a b z : In z (range a b) <-> a <= z <= b.
Proof.
  unfold range. rewrite in_map_iff. split.
  - intros (i & <- & H). apply in_seq in H. lia.
  - intros H. exists (Z.to_nat (z - a)). split; [lia|]. apply in_seq. lia.
Qed.

Lemma range_length a b : length (range a b) = Z.to_nat (b + 1 - a).
Proof. unfold range. rewrite map_length. apply seq_length. Qed.

Lemma range_nth a b i d : (i < Z.to_nat (b + 1 - a))%nat -> nth i (range a b) d = a + Z.of_nat i.
Proof.
  intros H. unfold range. rewrite (nth_indep _ d (a + Z.of_nat 0)) by (rewrite map_length, seq_length; exact H).
  rewrite (map_nth (fun i => a + Z.of_nat i)), seq_nth by exact H. reflexivity.
Qed.

Lemma flat_map_length_const {A B} (f : A -> list B) n l : (forall a, In a l -> length (f a) = n) ->
  length (flat_map f l) = (length l * n)%nat.
Proof.
  induction l as [|a l IH]; intros H; [reflexivity|]. cbn [flat_map length]. rewrite app_length, H by (left; reflexivity).
  rewrite IH by (intros b B'; apply H; right; exact B'). lia.
Qed.

Lemma flat_map_nth {A B} (f : A -> list B) n l d da : (forall a, In a l -> length (f a) = n) ->
  forall i j, (i < length l)%nat -> (j < n)%nat -> nth (i * n + j) (flat_map f l) d = nth j (f (nth i l da)) d.
Proof.
  induction l as [|a l IH]; intros H i j I J; [cbn in I; lia|]. cbn [flat_map].
  assert (La := H a (or_introl eq_refl)).
  destruct i as [|i].
  - cbn [nth Nat.mul Nat.add]. apply app_nth1. lia.
  - cbn [nth]. rewrite app_nth2 by (rewrite La; lia). rewrite La.
    replace (S i * n + j - n)%nat with (i * n + j)%nat by lia.
    apply IH; [intros b B'; apply H; right; exact B'|cbn in I; lia|exact J].
Qed.

Lemma all_some_map {A B} (f : A -> option B) (g : A -> B) l : (forall a, In a l -> f a = Some (g a)) ->
  all_some (map f l) = Some (map g l).
Proof.
  induction l as [|a l IH]; intros H; [reflexivity|]. cbn [map all_some]. rewrite H by (left; reflexivity).
  rewrite IH by (intros b B'; apply H; right; exact B'). reflexivity.
Qed.

Lemma flat_map_map {A B C} (f : A -> list B) (g : B -> C) l : map g (flat_map f l) = flat_map (fun a => map g (f a)) l.
Proof. induction l as [|a l IH]; [reflexivity|]. cbn [flat_map]. rewrite map_app, IH. reflexivity. Qed.

(** * The frame buffer *)

Lemma copy_at_spec o row fb : (o + length row <= length fb)%nat ->
  exists fb', copy_at o row fb = Some fb' /\ length fb' = length fb /\
    forall i, nth i fb' [] = if (o <=? i)%nat && (i <? o + length row)%nat then nth (i - o) row [] else nth i fb [].
Proof.
  intros H. unfold copy_at. rewrite (proj2 (Nat.leb_le _ _) H). eexists. split; [reflexivity|]. split.
  - rewrite !app_length, firstn_length, skipn_length. lia.
  - intros i. destruct (o <=? i)%nat eqn:E; [apply Nat.leb_le in E|apply Nat.leb_gt in E]; cbn [andb].
    + rewrite app_nth2 by (rewrite firstn_length; lia). rewrite firstn_length. replace (Nat.min o (length fb)) with o by lia.
      destruct (i <? o + length row)%nat eqn:F; [apply Nat.ltb_lt in F|apply Nat.ltb_ge in F].
      * rewrite app_nth1 by lia. reflexivity.
      * rewrite app_nth2 by lia. rewrite <- (firstn_skipn (o + length row) fb) at 2.
        rewrite app_nth2 by (rewrite firstn_length; lia). rewrite firstn_length. f_equal. lia.
    + rewrite app_nth1 by (rewrite firstn_length; lia). rewrite <- (firstn_skipn o fb) at 2.
      rewrite app_nth1 by (rewrite firstn_length; lia). reflexivity.
Qed.

Lemma addr_row (w x1 x2 x y y' : Z) : 0 <= x < w -> 0 <= x1 -> x1 <= x2 < w ->
  0 <= y -> 0 <= y' ->
  ((Z.to_nat (y' * w + x1) <=? Z.to_nat (y * w + x))%nat &&
   (Z.to_nat (y * w + x) <? Z.to_nat (y' * w + x1) + Z.to_nat (x2 - x1 + 1))%nat) =
  ((y' =? y) && ((x1 <=? x) && (x <=? x2))).
Proof.
  intros X X1 X2 Y Y'.
  assert (E : (y' = y /\ x1 <= x <= x2) <->
              ((Z.to_nat (y' * w + x1) <= Z.to_nat (y * w + x))%nat /\
               (Z.to_nat (y * w + x) < Z.to_nat (y' * w + x1) + Z.to_nat (x2 - x1 + 1))%nat)).
  { split.
    - intros [-> H]. nia.
    - intros [A B]. assert (0 <= y * w) by nia. assert (0 <= y' * w) by nia.
      assert (y' = y); [|subst; lia].
      destruct (Z.lt_trichotomy y' y) as [L|[L|L]]; [exfalso|exact L|exfalso].
      + assert (y' * w + w <= y * w) by nia. lia.
      + assert (y * w + w <= y' * w) by nia. lia. }
  destruct (y' =? y) eqn:E1; [apply Z.eqb_eq in E1|apply Z.eqb_neq in E1];
  (destruct (x1 <=? x) eqn:E2; [apply Z.leb_le in E2|apply Z.leb_gt in E2]);
  (destruct (x <=? x2) eqn:E3; [apply Z.leb_le in E3|apply Z.leb_gt in E3]); cbn [andb];
  apply andb_true_iff || apply andb_false_iff; rewrite ?Nat.leb_le, ?Nat.ltb_lt, ?Nat.leb_gt, ?Nat.ltb_ge; lia.
Qed.

Lemma addr_bound (w h x y : Z) n : Z.of_nat n = w * h -> 0 <= x < w -> 0 <= y < h -> (Z.to_nat (y * w + x) < n)%nat.
Proof. intros L X Y. assert (0 <= y * w) by nia. assert (y * w + w <= h * w) by nia. lia. Qed.

Lemma fill_rows_fb d x1 x2 c : 0 <= x1 -> x1 <= x2 < l_width d -> forall ys fb,
  Z.of_nat (length fb) = l_width d * l_height d -> (forall y, In y ys -> 0 <= y < l_height d) ->
  exists fb', do_all (fun y fb => copy_at (fb_addr d x1 y) (repeat c (Z.to_nat (x2 - x1 + 1))) fb) ys fb = Some fb' /\
    length fb' = length fb /\
    forall x y, 0 <= x < l_width d -> 0 <= y < l_height d ->
      nth (Z.to_nat (y * l_width d + x)) fb' [] =
      if existsb (fun y' => y' =? y) ys && ((x1 <=? x) && (x <=? x2)) then c
      else nth (Z.to_nat (y * l_width d + x)) fb [].
Proof.
  intros X1 X2. induction ys as [|y0 ys IH]; intros fb L H.
  - exists fb. split; [reflexivity|]. split; [reflexivity|]. intros x y X Y. reflexivity.
  - cbn [do_all]. pose proof (H y0 (or_introl eq_refl)) as Y0.
    assert (B : (fb_addr d x1 y0 + length (repeat c (Z.to_nat (x2 - x1 + 1))) <= length fb)%nat).
    { rewrite repeat_length. unfold fb_addr.
      pose proof (addr_bound (l_width d) (l_height d) x2 y0 (length fb) L ltac:(lia) Y0).
      assert (0 <= y0 * l_width d) by nia. lia. }
    destruct (copy_at_spec _ _ fb B) as (fb1 & -> & L1 & N1). cbn [bind].
    destruct (IH fb1) as (fb' & -> & L' & N'); [lia|intros y Y; apply H; right; exact Y|].
    exists fb'. split; [reflexivity|]. split; [lia|]. intros x y X Y. rewrite N' by assumption. rewrite N1.
    rewrite repeat_length. unfold fb_addr at 1 2. rewrite (addr_row (l_width d) x1 x2 x y y0) by lia.
    cbn [existsb]. unfold fb_addr.
    destruct (existsb (fun y' => y' =? y) ys), (y0 =? y) eqn:Ey, ((x1 <=? x) && (x <=? x2)) eqn:Ex; cbn [andb orb];
      try reflexivity.
    apply Z.eqb_eq in Ey. subst y0. apply andb_prop in Ex. destruct Ex as [E1 E2]. apply Z.leb_le in E1, E2.
    rewrite (nth_indep _ [] c) by (rewrite repeat_length; assert (0 <= y * l_width d) by nia; lia).
    apply nth_repeat.
Qed.

Lemma in_area_rows x1 y1 x2 y2 p :
  in_area (x1, y1, (x2, y2)) p =
  existsb (fun y' => y' =? snd p) (range y1 y2) && ((x1 <=? fst p) && (fst p <=? x2)).
Proof.
  unfold in_area. cbn [fst snd].
  assert (E : existsb (fun y' => y' =? snd p) (range y1 y2) = (y1 <=? snd p) && (snd p <=? y2)).
  { apply eq_true_iff_eq. rewrite existsb_exists, andb_true_iff, !Z.leb_le. split.
    - intros (y & Y & E). apply Z.eqb_eq in E. subst. apply range_in in Y. exact Y.
    - intros H. exists (snd p). rewrite range_in. split; [exact H|apply Z.eqb_refl]. }
  rewrite E. destruct (x1 <=? fst p), (fst p <=? x2), (y1 <=? snd p), (snd p <=? y2); reflexivity.
Qed.

Lemma set_data_in a data dev p : in_area a p = true ->
  set_data a data dev (fst p) (snd p) =
  nth (Z.to_nat ((snd p - snd (fst a)) * (fst (snd a) - fst (fst a) + 1) + (fst p - fst (fst a)))) data (dev (fst p) (snd p)).
Proof.
  destruct a as [[x1 y1] [x2 y2]]. unfold in_area, set_data. cbn [fst snd]. intros ->. reflexivity.
Qed.

Lemma set_data_out a data dev p : in_area a p = false -> set_data a data dev (fst p) (snd p) = dev (fst p) (snd p).
Proof. destruct a as [[x1 y1] [x2 y2]]. unfold in_area, set_data. cbn [fst snd]. intros ->. reflexivity. Qed.

Lemma in_area_spec a p : in_area a p = true <->
  fst (fst a) <= fst p <= fst (snd a) /\ snd (fst a) <= snd p <= snd (snd a).
Proof. unfold in_area. rewrite !andb_true_iff, !Z.leb_le. lia. Qed.

(** The pixels of an area by rows. *)
Lemma area_data {B} (f : Z -> Z -> B) a p d : in_area a p = true ->
  nth (Z.to_nat ((snd p - snd (fst a)) * (fst (snd a) - fst (fst a) + 1) + (fst p - fst (fst a))))
    (flat_map (fun y => map (fun x => f x y) (range (fst (fst a)) (fst (snd a)))) (range (snd (fst a)) (snd (snd a)))) d =
  f (fst p) (snd p).
Proof.
  destruct a as [[x1 y1] [x2 y2]], p as [x y]. intros H. apply in_area_spec in H. cbn [fst snd] in *.
  set (n := Z.to_nat (x2 + 1 - x1)).
  replace (Z.to_nat ((y - y1) * (x2 - x1 + 1) + (x - x1))) with (Z.to_nat (y - y1) * n + Z.to_nat (x - x1))%nat
    by (unfold n; nia).
  rewrite (flat_map_nth _ n _ _ 0).
  - rewrite range_nth by lia. rewrite Z2Nat.id by lia. replace (y1 + (y - y1)) with y by lia.
    assert (L : (Z.to_nat (x - x1) < length (range x1 x2))%nat) by (rewrite range_length; lia).
    rewrite (nth_indep _ d (f 0 y)) by (rewrite map_length; exact L).
    rewrite (map_nth (fun x => f x y)), range_nth by (rewrite range_length in L; exact L). f_equal. lia.
  - intros r _. rewrite map_length, range_length. reflexivity.
  - rewrite range_length. lia.
  - unfold n. lia.
Qed.

Lemma repeat_row {A} (c : A) x1 x2 : x1 <= x2 -> repeat c (Z.to_nat (x2 - x1 + 1)) = map (fun _ => c) (range x1 x2).
Proof.
  intros H. unfold range. rewrite map_map. replace (Z.to_nat (x2 - x1 + 1)) with (Z.to_nat (x2 + 1 - x1)) by lia.
  generalize (Z.to_nat (x2 + 1 - x1)) as n. generalize 0%nat as k.
  intros k n. revert k. induction n as [|n IH]; intros k; [reflexivity|]. cbn [repeat seq map]. f_equal. apply IH.
Qed.

(** * Areas in the display *)

Definition good_area (d : lcd) (a : area) : Prop :=
  on_display d (fst a) /\ on_display d (snd a) /\ fst (fst a) <= fst (snd a) /\ snd (fst a) <= snd (snd a).

Definition settings (d d' : lcd) : Prop :=
  l_width d' = l_width d /\ l_height d' = l_height d /\ l_sync d' = l_sync d /\ l_color d' = l_color d.

Lemma canvas_with_dev d v : canvas (with_dev d v) = canvas d. Proof. reflexivity. Qed.

Lemma add_damage_spec d a : good_area d a -> (forall b, l_damage d = Some b -> good_area d b) ->
  exists b, add_damage d a = with_damage d (Some b) /\ good_area d b /\
    (forall p, in_area a p = true -> in_area b p = true) /\
    (forall c p, l_damage d = Some c -> in_area c p = true -> in_area b p = true).
Proof.
  intros G H. unfold add_damage. destruct (l_damage d) as [c|] eqn:D.
  - specialize (H c eq_refl). destruct c as [[x1 y1] [x2 y2]], a as [[x1' y1'] [x2' y2']].
    eexists. split; [reflexivity|]. unfold good_area, on_display in *. cbn [fst snd] in *.
    destruct (x1' <? x1) eqn:E1; [apply Z.ltb_lt in E1|apply Z.ltb_ge in E1];
    (destruct (y1' <? y1) eqn:E2; [apply Z.ltb_lt in E2|apply Z.ltb_ge in E2]);
    (destruct (x2 <? x2') eqn:E3; [apply Z.ltb_lt in E3|apply Z.ltb_ge in E3]);
    (destruct (y2 <? y2') eqn:E4; [apply Z.ltb_lt in E4|apply Z.ltb_ge in E4]);
    (split; [lia|]); (split; [intros p; rewrite !in_area_spec; cbn [fst snd]; lia|]);
    (intros c p C; assert (c = (x1, y1, (x2, y2))) as -> by congruence; rewrite !in_area_spec; cbn [fst snd]; lia).
  - exists a. split; [reflexivity|]. split; [exact G|]. split; [auto|]. intros c p C. discriminate.
Qed.

Lemma in_area_false a p : in_area a p = false <-> ~ in_area a p = true.
Proof. destruct (in_area a p); split; congruence. Qed.

(** * Painting *)

(** The state after writing some pixels to the buffer in an area and showing or recording them. *)
Lemma store_spec d a fb' data : sound d -> good_area d a -> length fb' = length (l_fb d) ->
  (forall p, on_display d p -> in_area a p = false ->
     nth (Z.to_nat (snd p * l_width d + fst p)) fb' [] = canvas d p) ->
  (forall p, on_display d p -> in_area a p = true ->
     nth (Z.to_nat ((snd p - snd (fst a)) * (fst (snd a) - fst (fst a) + 1) + (fst p - fst (fst a)))) data (shown d p) =
     nth (Z.to_nat (snd p * l_width d + fst p)) fb' []) ->
  let d1 := with_fb d fb' in
  let d' := if l_sync d1 then with_dev d1 (set_data a data (l_dev d1)) else add_damage d1 a in
  sound d' /\ settings d d' /\ l_fb d' = fb' /\
  (l_sync d = true -> l_damage d' = l_damage d) /\
  (forall p, on_display d p -> shown d' p = if l_sync d && in_area a p then canvas d' p else shown d p).
Proof.
  intros So G L Out Data d1 d'. destruct (l_sync d) eqn:Sy.
  - assert (E : d' = with_dev d1 (set_data a data (l_dev d1))) by (unfold d', d1, with_fb; cbn [l_sync]; rewrite Sy; reflexivity).
    rewrite E. split; [|split; [|split; [reflexivity|split; [reflexivity|]]]].
    + destruct So as [S1 S2 S3 S4 S5]. constructor; try assumption.
      * change (Z.of_nat (length fb') = l_width d * l_height d). rewrite L. exact S3.
      * intros p P D. unfold shown, canvas, d1, with_dev, with_fb. cbn [l_dev l_fb l_width].
        destruct (in_area a p) eqn:A.
        -- rewrite set_data_in by exact A. apply Data; assumption.
        -- rewrite set_data_out by exact A. change (l_dev d (fst p) (snd p)) with (shown d p).
           rewrite S5 by assumption. symmetry. apply Out; assumption.
    + unfold settings. auto.
    + intros p P. unfold shown, canvas, d1, with_dev, with_fb. cbn [l_dev l_fb l_width andb].
      destruct (in_area a p) eqn:A.
      * rewrite set_data_in by exact A. apply Data; assumption.
      * rewrite set_data_out by exact A. reflexivity.
  - assert (E : d' = add_damage d1 a) by (unfold d', d1, with_fb; cbn [l_sync]; rewrite Sy; reflexivity).
    destruct (add_damage_spec d1 a G (s_damage d So)) as (b & B1 & B2 & B3 & B4).
    rewrite E, B1. split; [|split; [|split; [reflexivity|split; [congruence|reflexivity]]]].
    + destruct So as [S1 S2 S3 S4 S5]. constructor; try assumption.
      * change (Z.of_nat (length fb') = l_width d * l_height d). rewrite L. exact S3.
      * unfold d1. cbn [l_damage with_damage with_fb]. intros c C. assert (c = b) as -> by congruence. exact B2.
      * unfold d1, with_damage, with_fb. cbn [l_damage]. intros p P D. unfold shown, canvas. cbn [l_dev l_fb l_width].
        change (l_dev d (fst p) (snd p)) with (shown d p).
        assert (A : in_area a p = false).
        { apply in_area_false. intros X. apply B3 in X. congruence. }
        rewrite Out by assumption. apply S5; [exact P|]. destruct (l_damage d) as [c|] eqn:Dc; [|exact I].
        apply in_area_false. intros X. apply (B4 c p Dc) in X. congruence.
    + unfold settings. auto.
Qed.

Lemma fill_spec d a : sound d -> good_area d a ->
  exists d', fill a d = Some d' /\ sound d' /\ settings d d' /\
    (l_sync d = true -> l_damage d' = l_damage d) /\
    (forall p, on_display d p -> canvas d' p = if in_area a p then l_color d else canvas d p) /\
    (forall p, on_display d p -> shown d' p = if l_sync d && in_area a p then canvas d' p else shown d p).
Proof.
  intros So G. destruct a as [[x1 y1] [x2 y2]]. unfold fill.
  unfold good_area, on_display in G. cbn [fst snd] in G. destruct G as ((G1 & G2) & (G3 & G4) & G5 & G6).
  destruct (fill_rows_fb d x1 x2 (l_color d) ltac:(lia) ltac:(lia) (range y1 y2) (l_fb d) (s_size d So)) as (fb' & E & L & N).
  { intros y Y. apply range_in in Y. lia. }
  rewrite E. cbn [bind].
  assert (C : forall p, on_display d p -> nth (Z.to_nat (snd p * l_width d + fst p)) fb' [] =
                if in_area (x1, y1, (x2, y2)) p then l_color d else canvas d p).
  { intros p [P1 P2]. rewrite in_area_rows. apply N; assumption. }
  set (a := (x1, y1, (x2, y2))) in *.
  assert (Ga : good_area d a) by (unfold good_area, on_display, a; cbn [fst snd]; lia).
  pose proof (store_spec d a fb' (flat_map (fun _ => repeat (l_color d) (Z.to_nat (x2 - x1 + 1))) (range y1 y2))
    So Ga L) as St. cbn zeta in St.
  destruct St as (T1 & T2 & T3 & T4 & T5).
  - intros p P A. rewrite C, A by exact P. reflexivity.
  - intros p P A. rewrite C, A by exact P. rewrite repeat_row by lia.
    apply (area_data (fun _ _ => l_color d) a p _ A).
  - set (r := if l_sync (with_fb d fb') then _ else _) in *. exists r. split.
    { unfold r. cbn zeta. destruct (l_sync (with_fb d fb')); reflexivity. }
    split; [exact T1|]. split; [exact T2|]. split; [exact T4|].
    assert (Cv : forall p, canvas r p = nth (Z.to_nat (snd p * l_width d + fst p)) fb' []).
    { intros p. unfold canvas. rewrite T3. destruct T2 as (-> & _). reflexivity. }
    split; [|exact T5]. intros p P. rewrite Cv. apply C, P.
Qed.

Lemma read_area_spec d a : sound d -> good_area d a ->
  read_area d a = Some (flat_map (fun y => map (fun x => canvas d (x, y)) (range (fst (fst a)) (fst (snd a))))
                                 (range (snd (fst a)) (snd (snd a)))).
Proof.
  intros So G. destruct a as [[x1 y1] [x2 y2]]. unfold read_area. unfold good_area, on_display in G. cbn [fst snd] in *.
  set (pts := flat_map (fun y => map (fun x => (x, y)) (range x1 x2)) (range y1 y2)).
  assert (E1 : flat_map (fun y => map (fun x => nth_error (l_fb d) (fb_addr d x y)) (range x1 x2)) (range y1 y2) =
               map (fun p => nth_error (l_fb d) (fb_addr d (fst p) (snd p))) pts).
  { unfold pts. rewrite flat_map_map. apply flat_map_ext. intros y. rewrite map_map. reflexivity. }
  assert (E2 : flat_map (fun y => map (fun x => canvas d (x, y)) (range x1 x2)) (range y1 y2) = map (canvas d) pts).
  { unfold pts. rewrite flat_map_map. apply flat_map_ext. intros y. rewrite map_map. reflexivity. }
  rewrite E1, E2. apply all_some_map. intros [x y] P. unfold pts in P. apply in_flat_map in P.
  destruct P as (y' & Y & P). apply in_map_iff in P. destruct P as (x' & P & X). apply range_in in X, Y.
  apply pair_equal_spec in P. destruct P; subst x' y'. cbn [fst snd]. unfold canvas, fb_addr. cbn [fst snd].
  apply nth_error_nth'. apply (addr_bound _ _ _ _ _ (s_size d So)); lia.
Qed.

Lemma force_present_spec d : sound d ->
  exists d', force_present_canvas d = Some d' /\ sound d' /\ settings d d' /\ l_damage d' = None /\
    (forall p, canvas d' p = canvas d p) /\ (forall p, on_display d p -> shown d' p = canvas d p).
Proof.
  intros So. unfold force_present_canvas. destruct (l_damage d) as [a|] eqn:D.
  - assert (G : good_area d a) by exact (s_damage d So a D).
    rewrite (read_area_spec d a So G). cbn [bind]. eexists. split; [reflexivity|].
    set (data := flat_map _ _).
    assert (Sh : forall p, on_display d p -> set_data a data (l_dev d) (fst p) (snd p) = canvas d p).
    { intros p P. destruct (in_area a p) eqn:A.
      - rewrite set_data_in by exact A. unfold data.
        rewrite (area_data (fun x y => canvas d (x, y)) a p _ A). destruct p; reflexivity.
      - rewrite set_data_out by exact A. apply (s_rest d So); [exact P|]. rewrite D. exact A. }
    split.
    + constructor.
      * exact (s_width d So).
      * exact (s_height d So).
      * exact (s_size d So).
      * discriminate.
      * intros p P _. apply Sh, P.
    + repeat split; try reflexivity. exact Sh.
  - exists d. split; [reflexivity|]. split; [exact So|]. repeat split; auto.
    intros p P. apply (s_rest d So); [exact P|]. rewrite D. exact I.
Qed.

Lemma sound_sync d b : sound d -> sound (with_sync d b).
Proof. intros [S1 S2 S3 S4 S5]. constructor; assumption. Qed.

Lemma on_display_settings d d' p : settings d d' -> on_display d' p <-> on_display d p.
Proof. unfold on_display. intros (E1 & E2 & _). rewrite E1, E2. reflexivity. Qed.

(** * Operations *)

Lemma becomes_live P d d' : becomes P d d' -> live d'.
Proof.
  intros [A B C D E F G] Sy p H. assert (H' : on_display d p) by (unfold on_display in *; rewrite <- B, <- C; exact H).
  rewrite G, F by exact H'. rewrite <- D, Sy. reflexivity.
Qed.

Lemma becomes_display P d d' p : becomes P d d' -> on_display d' p <-> on_display d p.
Proof. intros [A B C D E F G]. unfold on_display. rewrite B, C. reflexivity. Qed.

Lemma becomes_ext P Q d d' : becomes P d d' -> (forall p, on_display d p -> P p = Q p) -> becomes Q d d'.
Proof.
  intros [A B C D E F G] H. constructor; try assumption.
  - intros p X. rewrite <- H by exact X. apply F, X.
  - intros p X. rewrite <- H by exact X. apply G, X.
Qed.

Lemma becomes_trans P Q d d1 d2 : becomes P d d1 -> becomes Q d1 d2 -> becomes Q d d2.
Proof.
  intros H1 H2. pose proof (becomes_display P d d1) as Ds.
  destruct H1 as [A B C D E F G] eqn:E1, H2 as [A' B' C' D' E' F' G']. clear E1.
  constructor; try congruence; try assumption.
  - intros p X. apply F', (Ds p); [constructor; assumption|exact X].
  - intros p X. rewrite G' by (apply (Ds p); [constructor; assumption|exact X]). rewrite D.
    destruct (l_sync d) eqn:Sy; [reflexivity|]. rewrite G by exact X. reflexivity.
Qed.

Lemma becomes_refl d : sound d -> live d -> becomes (canvas d) d d.
Proof.
  intros So L. constructor; auto. intros p X. destruct (l_sync d) eqn:E; [|reflexivity]. apply L; assumption.
Qed.

Lemma fill_becomes d a : sound d -> live d -> good_area d a ->
  exists d', fill a d = Some d' /\ becomes (paint (in_area a) (l_color d) (canvas d)) d d'.
Proof.
  intros So L G. destruct (fill_spec d a So G) as (d' & E & S' & (T1 & T2 & T3 & T4) & _ & C & Sh).
  exists d'. split; [exact E|]. constructor; auto. intros p X. rewrite Sh by exact X.
  unfold paint. rewrite C by exact X. destruct (l_sync d) eqn:Sy; cbn [andb]; [|reflexivity].
  destruct (in_area a p); [reflexivity|]. apply L; assumption.
Qed.

Lemma clip_spec v m : 0 <= m -> clip v m = if (0 <=? v) && (v <=? m) then Some v else None.
Proof.
  intros M. unfold clip. destruct (v <? 0) eqn:A; [apply Z.ltb_lt in A|apply Z.ltb_ge in A];
    (destruct (0 <=? v) eqn:B; [apply Z.leb_le in B|apply Z.leb_gt in B]); try lia; cbn [andb]; try reflexivity.
  destruct (m <? v) eqn:C; [apply Z.ltb_lt in C|apply Z.ltb_ge in C];
    (destruct (v <=? m) eqn:D; [apply Z.leb_le in D|apply Z.leb_gt in D]); try lia; reflexivity.
Qed.

Lemma clip_xy_on d p : on_display d p -> clip_xy d p = Some p.
Proof.
  intros [A B]. unfold clip_xy. rewrite !clip_spec by lia.
  rewrite (proj2 (Z.leb_le 0 (fst p))), (proj2 (Z.leb_le (fst p) _)), (proj2 (Z.leb_le 0 (snd p))), (proj2 (Z.leb_le (snd p) _)) by lia.
  destruct p; reflexivity.
Qed.

Lemma on_display_dec d p : {on_display d p} + {~ on_display d p}.
Proof.
  unfold on_display. destruct (Z_le_dec 0 (fst p)), (Z_lt_dec (fst p) (l_width d)), (Z_le_dec 0 (snd p)), (Z_lt_dec (snd p) (l_height d));
    (left; lia) || (right; lia).
Qed.

Lemma clip_xy_off d p : 0 < l_width d -> 0 < l_height d -> ~ on_display d p -> clip_xy d p = None.
Proof.
  intros W H N. unfold clip_xy. rewrite !clip_spec by lia. unfold on_display in N.
  destruct ((0 <=? fst p) && (fst p <=? l_width d - 1)) eqn:A; [|reflexivity].
  destruct ((0 <=? snd p) && (snd p <=? l_height d - 1)) eqn:B; [|reflexivity].
  apply andb_prop in A, B. rewrite !Z.leb_le in A, B. lia.
Qed.

Lemma point_eqb_eq p q : point_eqb p q = true <-> p = q.
Proof.
  unfold point_eqb. rewrite andb_true_iff, !Z.eqb_eq. destruct p, q. cbn [fst snd]. split; [intros [-> ->]; reflexivity|].
  intros H. apply pair_equal_spec in H. exact H.
Qed.

Lemma in_area_point p q : in_area (p, p) q = point_eqb q p.
Proof.
  apply eq_true_iff_eq. rewrite in_area_spec, point_eqb_eq. cbn [fst snd]. destruct p, q. cbn [fst snd].
  split; intros H; [f_equal; lia|inversion H; lia].
Qed.

Lemma draw_pixel_becomes d p : sound d -> live d ->
  exists d', draw_pixel p d = Some d' /\ becomes (paint (fun q => point_eqb q p) (l_color d) (canvas d)) d d'.
Proof.
  intros So L. unfold draw_pixel. destruct (on_display_dec d p) as [On|Off].
  - rewrite (clip_xy_on d p On). destruct (fill_becomes d (p, p) So L) as (d' & E & B).
    { repeat split; cbn [fst snd]; try apply On; lia. }
    exists d'. split; [exact E|]. apply (becomes_ext _ _ _ _ B). intros q _. unfold paint. rewrite in_area_point. reflexivity.
  - rewrite clip_xy_off; [|apply (s_width d So)|apply (s_height d So)|exact Off].
    exists d. split; [reflexivity|]. apply (becomes_ext _ _ _ _ (becomes_refl d So L)). intros q Q. unfold paint.
    destruct (point_eqb q p) eqn:E; [|reflexivity]. apply point_eqb_eq in E. subst q. contradiction.
Qed.

Lemma draw_pixels_becomes l : forall d, sound d -> live d ->
  exists d', do_all draw_pixel l d = Some d' /\ becomes (paint (in_list l) (l_color d) (canvas d)) d d'.
Proof.
  induction l as [|p l IH]; intros d So L.
  - exists d. split; [reflexivity|]. apply becomes_refl; assumption.
  - cbn [do_all]. destruct (draw_pixel_becomes d p So L) as (d1 & -> & B1). cbn [bind].
    destruct (IH d1 (b_sound _ _ _ B1) (becomes_live _ _ _ B1)) as (d2 & E2 & B2).
    exists d2. split; [exact E2|]. apply (becomes_ext _ _ _ _ (becomes_trans _ _ _ _ _ B1 B2)).
    intros q Q. unfold paint. rewrite (b_canvas _ _ _ B1) by exact Q. rewrite (b_color _ _ _ B1). unfold paint, in_list.
    cbn [existsb]. destruct (existsb (point_eqb q) l), (point_eqb q p); reflexivity.
Qed.

Lemma without_sync_becomes f P d : sound d -> live d ->
  (forall d0, sound d0 -> live d0 -> settings d (with_sync d0 (l_sync d)) -> (forall p, on_display d p -> canvas d0 p = canvas d p) ->
     (forall p, on_display d p -> shown d0 p = shown d p) -> l_fb d0 = l_fb d ->
     exists d1, f d0 = Some d1 /\ becomes P d0 d1) ->
  exists d', without_sync f d = Some d' /\ becomes P d d'.
Proof.
  intros So L H. unfold without_sync. destruct (l_sync d) eqn:Sy.
  - destruct (H (with_sync d false)) as (d1 & -> & B); auto.
    { apply sound_sync, So. }
    { intros X. discriminate. }
    { unfold settings. auto. }
    cbn [bind]. destruct (force_present_spec (with_sync d1 true) (sound_sync _ _ (b_sound _ _ _ B)))
      as (d2 & E & S2 & (T1 & T2 & T3 & T4) & _ & C & Sh).
    exists d2. split; [exact E|]. destruct B as [A B C' D E' F G].
    cbn [with_sync l_width l_height l_sync l_color] in *.
    constructor; try congruence; try assumption.
    + intros p X. rewrite C. apply F, X.
    + intros p X. rewrite Sy. rewrite Sh; [apply F, X|]. unfold on_display in *. cbn [with_sync l_width l_height].
      rewrite B, C'. exact X.
  - apply H; auto. unfold settings. auto.
Qed.

Lemma draw_all_becomes l d : sound d -> live d ->
  exists d', draw_all l d = Some d' /\ becomes (paint (in_list l) (l_color d) (canvas d)) d d'.
Proof.
  intros So L. apply without_sync_becomes; [exact So|exact L|]. intros d0 S0 L0 (T1 & T2 & T3 & T4) C _ _.
  destruct (draw_pixels_becomes l d0 S0 L0) as (d1 & E & B). exists d1. split; [exact E|].
  apply (becomes_ext _ _ _ _ B). intros q Q. unfold paint. cbn [with_sync l_width l_height l_color] in *. rewrite T4, C; [reflexivity|].
  unfold on_display in *. rewrite <- T1, <- T2. exact Q.
Qed.

(** ** Rectangles *)

Lemma clip2_spec v e m : 0 <= m -> clip2 v e m = if v + e <? 0 then None else Some (Z.min m (v + e)).
Proof.
  intros M. unfold clip2. destruct (v + e <? 0) eqn:A; [reflexivity|].
  destruct (m <? v + e) eqn:B; [apply Z.ltb_lt in B|apply Z.ltb_ge in B]; f_equal; lia.
Qed.

Lemma clamp_spec v m : 0 <= m -> clamp v m = Z.max 0 (Z.min m v).
Proof.
  intros M. unfold clamp. destruct (v <? 0) eqn:A; [apply Z.ltb_lt in A; lia|apply Z.ltb_ge in A].
  destruct (m <? v) eqn:B; [apply Z.ltb_lt in B|apply Z.ltb_ge in B]; lia.
Qed.

Lemma draw_rect_filled_becomes d p w h : sound d -> live d -> 1 <= w <= 65536 -> 1 <= h <= 65536 ->
  (fst p < l_width d \/ fst p + w <= 0 \/ snd p + h <= 0) -> (snd p < l_height d \/ fst p + w <= 0 \/ snd p + h <= 0) ->
  exists d', draw_rect_filled p w h d = Some d' /\
    becomes (paint (in_area (box p w h)) (l_color d) (canvas d)) d d'.
Proof.
  intros So L W H Px Py. unfold draw_rect_filled, clip_x2y2, to_u16. rewrite !Z.mod_small by lia.
  pose proof (s_width d So) as Sw. pose proof (s_height d So) as Sh.
  rewrite !clip2_spec by lia.
  destruct (fst p + (w - 1) <? 0) eqn:A; [apply Z.ltb_lt in A|apply Z.ltb_ge in A].
  { exists d. split; [reflexivity|]. apply (becomes_ext _ _ _ _ (becomes_refl d So L)). intros q [Q1 Q2]. unfold paint.
    destruct (in_area (box p w h) q) eqn:X; [|reflexivity]. apply in_area_spec in X. unfold box in X. cbn [fst snd] in X. lia. }
  destruct (snd p + (h - 1) <? 0) eqn:B; [apply Z.ltb_lt in B|apply Z.ltb_ge in B].
  { exists d. split; [reflexivity|]. apply (becomes_ext _ _ _ _ (becomes_refl d So L)). intros q [Q1 Q2]. unfold paint.
    destruct (in_area (box p w h) q) eqn:X; [|reflexivity]. apply in_area_spec in X. unfold box in X. cbn [fst snd] in X. lia. }
  destruct (fill_becomes d (clamp_xy d p, (Z.min (l_width d - 1) (fst p + (w - 1)), Z.min (l_height d - 1) (snd p + (h - 1)))) So L)
    as (d' & E & Bc).
  { unfold good_area, on_display, clamp_xy. cbn [fst snd]. rewrite !clamp_spec by lia. lia. }
  exists d'. split; [exact E|]. apply (becomes_ext _ _ _ _ Bc). intros q [Q1 Q2]. unfold paint.
  replace (in_area (box p w h) q) with (in_area (clamp_xy d p, (Z.min (l_width d - 1) (fst p + (w - 1)), Z.min (l_height d - 1) (snd p + (h - 1)))) q);
    [reflexivity|].
  apply eq_true_iff_eq. rewrite !in_area_spec. unfold clamp_xy, box. cbn [fst snd]. rewrite !clamp_spec by lia. lia.
Qed.

Lemma clear_becomes d : sound d -> live d ->
  exists d', clear d = Some d' /\ becomes (fun _ => l_color d) d d'.
Proof.
  intros So L. unfold clear. pose proof (s_width d So) as Sw. pose proof (s_height d So) as Sh.
  destruct (fill_becomes d ((0, 0), (l_width d - 1, l_height d - 1)) So L) as (d' & E & B).
  { unfold good_area, on_display. cbn [fst snd]. lia. }
  exists d'. split; [exact E|]. apply (becomes_ext _ _ _ _ B). intros q [Q1 Q2]. unfold paint.
  rewrite (proj2 (in_area_spec _ q)); [reflexivity|]. cbn [fst snd]. lia.
Qed.

(** ** Pieces of the picture *)

Definition box_fits (d : lcd) (p : point) (w h : Z) : Prop :=
  on_display d p /\ 1 <= w /\ 1 <= h /\ fst p + w <= l_width d /\ snd p + h <= l_height d.

Lemma box_corners d p w h : sound d -> box_fits d p w h ->
  clip_xy d p = Some p /\ clip_x2y2 d p w h = Some (fst p + w - 1, snd p + h - 1) /\ good_area d (box p w h).
Proof.
  intros So (On & W & H & A & B). pose proof (s_width d So). pose proof (s_height d So). unfold on_display in On.
  split; [apply clip_xy_on, On|]. split.
  - unfold clip_x2y2, to_u16. rewrite !Z.mod_small by lia. rewrite !clip2_spec by lia.
    destruct (fst p + (w - 1) <? 0) eqn:C; [apply Z.ltb_lt in C; lia|].
    destruct (snd p + (h - 1) <? 0) eqn:D; [apply Z.ltb_lt in D; lia|]. f_equal. f_equal; lia.
  - unfold good_area, box, on_display. cbn [fst snd]. lia.
Qed.

Lemma read_pixels_spec d p w h : sound d -> box_fits d p w h ->
  read_pixels p w h d = Some (block (box p w h) (canvas d)).
Proof.
  intros So Fi. destruct (box_corners d p w h So Fi) as (C1 & C2 & G). unfold read_pixels. rewrite C1. cbn [bind].
  rewrite C2. cbn [bind]. apply (read_area_spec d (box p w h) So G).
Qed.

Lemma put_loop_spec d (Q : picture) : forall pts rest fb, Z.of_nat (length fb) = l_width d * l_height d ->
  (forall q, In q pts -> on_display d q) ->
  exists fb', put_loop d pts (map Q pts ++ rest) fb = Some fb' /\ length fb' = length fb /\
    forall q, on_display d q -> nth (Z.to_nat (snd q * l_width d + fst q)) fb' [] =
      if existsb (point_eqb q) pts then Q q else nth (Z.to_nat (snd q * l_width d + fst q)) fb [].
Proof.
  induction pts as [|[x y] pts IH]; intros rest fb L On.
  - exists fb. repeat split; reflexivity.
  - cbn [put_loop map app]. pose proof (On (x, y) (or_introl eq_refl)) as O. unfold on_display in O. cbn [fst snd] in O.
    assert (B : (fb_addr d x y + length [Q (x, y)] <= length fb)%nat).
    { cbn [length]. unfold fb_addr. pose proof (addr_bound _ _ x y _ L ltac:(lia) ltac:(lia)). lia. }
    destruct (copy_at_spec _ _ fb B) as (fb1 & -> & L1 & N1). cbn [bind].
    destruct (IH rest fb1) as (fb' & E & L' & N'); [lia|intros q H; apply On; right; exact H|].
    exists fb'. split; [exact E|]. split; [lia|]. intros q Hq. rewrite N' by exact Hq. rewrite N1. cbn [existsb length].
    unfold on_display in Hq.
    pose proof (addr_row (l_width d) x x (fst q) (snd q) y ltac:(lia) ltac:(lia) ltac:(lia) ltac:(lia) ltac:(lia)) as Ar.
    replace (Z.to_nat (x - x + 1)) with 1%nat in Ar by lia. unfold fb_addr at 1 2. rewrite Ar.
    destruct (existsb (point_eqb q) pts); [rewrite orb_true_r; reflexivity|]. rewrite orb_false_r.
    destruct (point_eqb q (x, y)) eqn:Eq.
    + apply point_eqb_eq in Eq. subst q. cbn [fst snd]. rewrite Z.eqb_refl, Z.leb_refl. cbn [andb].
      unfold fb_addr. rewrite Nat.sub_diag. reflexivity.
    + destruct ((y =? snd q) && ((x <=? fst q) && (fst q <=? x))) eqn:X; [|reflexivity].
      rewrite !andb_true_iff, Z.eqb_eq, !Z.leb_le in X. exfalso.
      assert (q = (x, y)) by (destruct q; cbn [fst snd] in X; f_equal; lia). subst q.
      rewrite (proj2 (point_eqb_eq _ _) eq_refl) in Eq. discriminate.
Qed.

Definition points_of (a : area) : list point :=
  flat_map (fun y => map (fun x => (x, y)) (range (fst (fst a)) (fst (snd a)))) (range (snd (fst a)) (snd (snd a))).

Lemma points_of_in a q : In q (points_of a) <-> in_area a q = true.
Proof.
  unfold points_of. rewrite in_flat_map, in_area_spec. split.
  - intros (y & Y & H). apply in_map_iff in H. destruct H as (x & <- & X). apply range_in in X, Y. cbn [fst snd]. lia.
  - intros [X Y]. exists (snd q). rewrite range_in. split; [exact Y|]. apply in_map_iff. exists (fst q).
    rewrite range_in. split; [destruct q; reflexivity|exact X].
Qed.

Lemma block_points a Q : block a Q = map Q (points_of a).
Proof. unfold block, points_of. rewrite flat_map_map. apply flat_map_ext. intros y. rewrite map_map. reflexivity. Qed.

Lemma put_pixels_becomes d p w h data Q : sound d -> live d -> box_fits d p w h ->
  data = block (box p w h) Q ->
  exists d', put_pixels p data w h d = Some d' /\ becomes (paste (in_area (box p w h)) Q (canvas d)) d d'.
Proof.
  intros So L Fi ->. destruct (box_corners d p w h So Fi) as (C1 & C2 & G). unfold put_pixels. rewrite C1. cbn [bind].
  rewrite C2. cbn [bind fst snd]. set (a := box p w h) in *.
  change (p, (fst p + w - 1, snd p + h - 1)) with a.
  change (flat_map _ _) with (points_of a).
  destruct (put_loop_spec d Q (points_of a) [] (l_fb d) (s_size d So)) as (fb' & E & Lf & N).
  { intros q H. apply points_of_in, in_area_spec in H. unfold good_area, on_display in *. lia. }
  rewrite app_nil_r, <- block_points in E. rewrite E. cbn [bind].
  assert (Ar : forall q, existsb (point_eqb q) (points_of a) = in_area a q).
  { intros q. apply eq_true_iff_eq. rewrite existsb_exists, <- points_of_in. split.
    - intros (r & R & Eq). apply point_eqb_eq in Eq. subst. exact R.
    - intros H. exists q. split; [exact H|]. apply point_eqb_eq. reflexivity. }
  assert (C : forall q, on_display d q -> nth (Z.to_nat (snd q * l_width d + fst q)) fb' [] = paste (in_area a) Q (canvas d) q).
  { intros q Hq. rewrite N by exact Hq. rewrite Ar. reflexivity. }
  pose proof (store_spec d a fb' (block a Q) So G Lf) as St. cbn zeta in St.
  destruct St as (T1 & T2 & T3 & T4 & T5).
  - intros q Hq A. rewrite C by exact Hq. unfold paste. rewrite A. reflexivity.
  - intros q Hq A. rewrite C by exact Hq. unfold paste. rewrite A. unfold block.
    rewrite (area_data (fun x y => Q (x, y)) a q _ A). destruct q; reflexivity.
  - set (r := if l_sync (with_fb d fb') then _ else _) in *. exists r. split.
    { unfold r. cbn zeta. destruct (l_sync (with_fb d fb')); reflexivity. }
    assert (Cv : forall q, on_display d q -> canvas r q = paste (in_area a) Q (canvas d) q).
    { intros q Hq. unfold canvas. rewrite T3. destruct T2 as (-> & _). apply C, Hq. }
    destruct T2 as (S1 & S2 & S3 & S4). constructor; try assumption.
    intros q Hq. rewrite T5 by exact Hq. destruct (l_sync d) eqn:Sy; cbn [andb]; [|reflexivity].
    destruct (in_area a q) eqn:A; [apply Cv, Hq|]. unfold paste. rewrite A. apply L; assumption.
Qed.

Lemma box_shift p q w h (P : picture) :
  block (box p w h) P = block (box q w h) (fun r => P (fst r - fst q + fst p, snd r - snd q + snd p)).
Proof.
  unfold block, box. cbn [fst snd].
  assert (R : forall a b n, range a (a + n - 1) = map (fun z => z - b + a) (range b (b + n - 1))).
  { intros a b n. unfold range. rewrite map_map. replace (a + n - 1 + 1 - a) with (b + n - 1 + 1 - b) by lia.
    apply map_ext. intros i. lia. }
  rewrite (R (snd p) (snd q) h), flat_map_concat_map, map_map, <- flat_map_concat_map.
  apply flat_map_ext. intros y. rewrite (R (fst p) (fst q) w), map_map. reflexivity.
Qed.

Lemma move_pixels_becomes d p1 p2 w h : sound d -> live d -> box_fits d p1 w h -> box_fits d p2 w h ->
  exists d', move_pixels p1 p2 w h d = Some d' /\
    becomes (paste (in_area (box p2 w h)) (fun r => canvas d (fst r - fst p2 + fst p1, snd r - snd p2 + snd p1))
               (paint (in_area (box p1 w h)) (l_color d) (canvas d))) d d'.
Proof.
  intros So L F1 F2. unfold move_pixels. rewrite (read_pixels_spec d p1 w h So F1). cbn [bind].
  pose proof (s_width d So). pose proof (s_height d So).
  apply without_sync_becomes; [exact So|exact L|]. intros d0 S0 L0 (T1 & T2 & T3 & T4) C _ _.
  cbn [with_sync l_width l_height l_color] in *.
  assert (F1' : box_fits d0 p1 w h) by (unfold box_fits, on_display in *; rewrite <- T1, <- T2 in *; exact F1).
  assert (F2' : box_fits d0 p2 w h) by (unfold box_fits, on_display in *; rewrite <- T1, <- T2 in *; exact F2).
  unfold box_fits, on_display in F1'.
  destruct (draw_rect_filled_becomes d0 p1 w h S0 L0) as (d1 & -> & B1); try lia. cbn [bind].
  destruct (put_pixels_becomes d1 p2 w h (block (box p1 w h) (canvas d))
    (fun r => canvas d (fst r - fst p2 + fst p1, snd r - snd p2 + snd p1))
    (b_sound _ _ _ B1) (becomes_live _ _ _ B1)) as (d2 & E & B2).
  { unfold box_fits, on_display in *. rewrite (b_width _ _ _ B1), (b_height _ _ _ B1). exact F2'. }
  { apply box_shift. }
  exists d2. split; [exact E|]. apply (becomes_ext _ _ _ _ (becomes_trans _ _ _ _ _ B1 B2)). intros q Hq.
  unfold paste. destruct (in_area (box p2 w h) q); [reflexivity|]. rewrite (b_canvas _ _ _ B1) by exact Hq.
  unfold paint. rewrite T4, C; [reflexivity|]. unfold on_display in *. rewrite <- T1, <- T2. exact Hq.
Qed.

(** * Bucket fill *)

Lemma px_eqb_eq a b : px_eqb a b = true <-> a = b.
Proof.
  revert b. induction a as [|x a IH]; intros [|y b]; cbn [px_eqb]; try (split; congruence).
  rewrite andb_true_iff, N.eqb_eq, IH. split; [intros [-> ->]; reflexivity|]. intros H. inversion H. auto.
Qed.

Lemma first_color_some encode p l : forall i c, first_color encode p i l = Some c ->
  exists k, nth_error l k = Some (nth k l (0, 0, 0)%N) /\ c = (i + N.of_nat k)%N /\ p = encode (nth k l (0, 0, 0)%N).
Proof.
  induction l as [|x l IH]; intros i c H; cbn [first_color] in H; [discriminate|].
  destruct (px_eqb (encode x) p) eqn:E.
  - apply px_eqb_eq in E. exists 0%nat. cbn [nth nth_error]. repeat split; [|congruence]. assert (c = i) by congruence. lia.
  - destruct (IH (i + 1)%N c H) as (k & K1 & K2 & K3). exists (S k). cbn [nth nth_error]. repeat split; [exact K1|lia|exact K3].
Qed.

Lemma ansi_of_inj encode p q c : ansi_of encode p = Some c -> ansi_of encode q = Some c -> p = q.
Proof.
  unfold ansi_of. intros H1 H2. apply first_color_some in H1, H2.
  destruct H1 as (k1 & _ & E1 & ->), H2 as (k2 & _ & E2 & ->). assert (k1 = k2) as -> by lia. reflexivity.
Qed.

Lemma peek_on encode d p : sound d -> on_display d p -> peek_pixel encode p d = Some (ansi_of encode (canvas d p)).
Proof.
  intros So On. unfold peek_pixel. rewrite (clip_xy_on d p On). destruct p as [x y]. unfold on_display in On. cbn [fst snd] in On.
  assert (E : nth_error (l_fb d) (fb_addr d x y) = Some (canvas d (x, y))).
  { apply nth_error_nth'. exact (addr_bound _ _ x y _ (s_size d So) (proj1 On) (proj2 On)). }
  rewrite E. reflexivity.
Qed.

Lemma peek_off encode d p : sound d -> ~ on_display d p -> peek_pixel encode p d = Some None.
Proof.
  intros So Off. unfold peek_pixel. rewrite clip_xy_off; [reflexivity|apply (s_width d So)|apply (s_height d So)|exact Off].
Qed.

Lemma neighbours_in p q : In q (neighbours p) -> adjacent p q.
Proof.
  destruct p as [x y]. unfold neighbours. rewrite !in_app_iff.
  destruct (y <? 32767), (-32768 <? y), (x <? 32767), (-32768 <? x); cbn [In]; unfold adjacent;
    intuition (subst; cbn [fst snd] in *; try lia; try contradiction).
Qed.

Lemma neighbours_all p q : adjacent p q -> pixel q -> In q (neighbours p).
Proof.
  destruct p as [x y], q as [a b]. unfold adjacent, pixel, is16, neighbours. cbn [fst snd]. intros A [P1 P2].
  rewrite !in_app_iff.
  assert (C : a = x /\ b = y + 1 \/ a = x /\ b = y - 1 \/ a = x + 1 /\ b = y \/ a = x - 1 /\ b = y) by lia.
  destruct C as [[-> ->]|[[-> ->]|[[-> ->]|[-> ->]]]].
  - left. rewrite (proj2 (Z.ltb_lt y 32767)) by lia. left. reflexivity.
  - right. left. rewrite (proj2 (Z.ltb_lt (-32768) y)) by lia. left. reflexivity.
  - right. right. left. rewrite (proj2 (Z.ltb_lt x 32767)) by lia. left. reflexivity.
  - right. right. right. rewrite (proj2 (Z.ltb_lt (-32768) x)) by lia. left. reflexivity.
Qed.

Lemma neighbours_length p : (length (neighbours p) <= 4)%nat.
Proof.
  destruct p as [x y]. unfold neighbours. rewrite !app_length.
  destruct (y <? 32767), (-32768 <? y), (x <? 32767), (-32768 <? x); cbn [length]; lia.
Qed.

Lemma display_pixel d p : sound d -> on_display d p -> pixel p.
Proof. intros So [A B]. pose proof (s_width d So). pose proof (s_height d So). unfold pixel, is16. lia. Qed.

Lemma filter_less {A} (f g : A -> bool) l : (forall x, g x = true -> f x = true) ->
  (length (filter g l) <= length (filter f l))%nat.
Proof.
  intros H. induction l as [|a l IH]; [reflexivity|]. cbn [filter]. specialize (H a).
  destruct (g a), (f a); cbn [length]; try lia; discriminate (H eq_refl).
Qed.

Lemma filter_fewer {A} (f g : A -> bool) l x : (forall x, g x = true -> f x = true) -> In x l -> f x = true -> g x = false ->
  (length (filter g l) < length (filter f l))%nat.
Proof.
  intros H. induction l as [|a l IH]; intros I F G; [destruct I|]. cbn [filter]. destruct I as [->|I].
  - rewrite F, G. cbn [length]. pose proof (filter_less f g l H). lia.
  - specialize (IH I F G). specialize (H a). destruct (g a), (f a); cbn [length]; try lia; discriminate (H eq_refl).
Qed.

Definition everything (d : lcd) : list point := points_of ((0, 0), (l_width d - 1, l_height d - 1)).

Lemma everything_in d p : In p (everything d) <-> on_display d p.
Proof. unfold everything. rewrite points_of_in, in_area_spec. unfold on_display. cbn [fst snd]. lia. Qed.

Definition left_to_fill (d0 d : lcd) (s : px) : nat :=
  length (filter (fun q => px_eqb (canvas d q) s) (everything d0)).

Section Fill.
Variable encode : rgb -> px.
Variables (d0 : lcd) (p0 : point) (seed : N).
Hypothesis So0 : sound d0.
Hypothesis On0 : on_display d0 p0.
Hypothesis Seed : ansi_of encode (canvas d0 p0) = Some seed.

Lemma is_seed d q : sound d -> l_width d = l_width d0 -> l_height d = l_height d0 -> forall r,
  peek_pixel encode q d = Some r ->
  (match r with Some c => (c =? seed)%N | None => false end = true <-> on_display d0 q /\ canvas d q = canvas d0 p0).
Proof.
  intros So W H r E. destruct (on_display_dec d q) as [On|Off].
  - rewrite (peek_on encode d q So On) in E.
    assert (E' : r = ansi_of encode (canvas d q)) by congruence.
    assert (On' : on_display d0 q) by (unfold on_display in *; rewrite <- W, <- H; exact On).
    split.
    + intros X. split; [exact On'|]. destruct r as [c|]; [|discriminate]. apply N.eqb_eq in X. subst c.
      apply (ansi_of_inj encode _ _ seed); [symmetry; exact E'|exact Seed].
    + intros [_ X]. rewrite X, Seed in E'. rewrite E'. apply N.eqb_refl.
  - rewrite (peek_off encode d q So Off) in E. assert (r = None) as -> by congruence. split; [discriminate|].
    intros [X _]. exfalso. apply Off. unfold on_display in *. rewrite W, H. exact X.
Qed.

Hypothesis Ink : l_color d0 <> canvas d0 p0.

Lemma fill_loop_spec : forall n pending d,
  becomes (canvas d) d0 d -> live d ->
  (forall q, on_display d0 q -> canvas d q = canvas d0 q \/ region d0 p0 q /\ canvas d q = l_color d0) ->
  (forall q, In q pending -> q = p0 \/ exists r, region d0 p0 r /\ adjacent r q) ->
  (forall q r, on_display d0 q -> on_display d0 r -> adjacent q r -> canvas d0 q = canvas d0 p0 -> canvas d q = l_color d0 ->
     canvas d0 r = canvas d0 p0 -> canvas d r = l_color d0 \/ In r pending) ->
  (canvas d p0 = l_color d0 \/ In p0 pending) ->
  (5 * left_to_fill d0 d (canvas d0 p0) + length pending <= n)%nat ->
  exists d', fill_loop encode seed n pending d = Some (Some d') /\ becomes (canvas d') d0 d' /\
    (forall q, on_display d0 q -> (region d0 p0 q /\ canvas d' q = l_color d0) \/ (~ region d0 p0 q /\ canvas d' q = canvas d0 q)).
Proof.
  assert (Look : forall q, region d0 p0 q -> canvas d0 q = canvas d0 p0).
  { intros q R. destruct R; [reflexivity|assumption]. }
  assert (OnR : forall q, region d0 p0 q -> on_display d0 q).
  { intros q R. destruct R; assumption. }
  induction n as [|n IH]; intros pending d B L I1 I2 I3 I4 Fuel.
  - destruct pending; [|cbn [length] in Fuel; lia]. exists d. split; [reflexivity|]. split; [exact B|].
    assert (All : forall q, region d0 p0 q -> canvas d q = l_color d0).
    { intros q R. induction R as [On|q r R IHR A On E].
      - destruct I4 as [X|[]]. exact X.
      - destruct (I3 q r (OnR q R) On A (Look q R) IHR E) as [X|[]]. exact X. }
    intros q Q. destruct (I1 q Q) as [X|[R X]]; [|left; auto].
    right. split; [|exact X]. intros R. pose proof (All q R). pose proof (Look q R). congruence.
  - destruct pending as [|p rest].
    + exists d. split; [reflexivity|]. split; [exact B|].
      assert (All : forall q, region d0 p0 q -> canvas d q = l_color d0).
      { intros q R. induction R as [On|q r R IHR A On E].
        - destruct I4 as [X|[]]. exact X.
        - destruct (I3 q r (OnR q R) On A (Look q R) IHR E) as [X|[]]. exact X. }
      intros q Q. destruct (I1 q Q) as [X|[R X]]; [|left; auto].
      right. split; [|exact X]. intros R. pose proof (All q R). pose proof (Look q R). congruence.
    + cbn [fill_loop].
      assert (Pk : exists r, peek_pixel encode p d = Some r).
      { destruct (on_display_dec d p) as [On|Off]; [rewrite (peek_on encode d p (b_sound _ _ _ B) On)|rewrite (peek_off encode d p (b_sound _ _ _ B) Off)]; eauto. }
      destruct Pk as (r & Pk). rewrite Pk. cbn [bind].
      pose proof (is_seed d p (b_sound _ _ _ B) (b_width _ _ _ B) (b_height _ _ _ B) r Pk) as Is.
      destruct (match r with Some c => (c =? seed)%N | None => false end) eqn:Test.
      * destruct (proj1 Is eq_refl) as [On Eq].
        destruct (draw_pixel_becomes d p (b_sound _ _ _ B) L) as (d1 & E1 & B1). rewrite E1. cbn [bind].
        assert (B1' : becomes (canvas d1) d0 d1).
        { apply (becomes_ext _ _ _ _ (becomes_trans _ _ _ _ _ B B1)). intros q Q. symmetry. apply (b_canvas _ _ _ B1).
          apply (becomes_display _ _ _ _ B). exact Q. }
        assert (C1 : forall q, on_display d0 q -> canvas d1 q = if point_eqb q p then l_color d0 else canvas d q).
        { intros q Q. rewrite (b_canvas _ _ _ B1) by (apply (becomes_display _ _ _ _ B); exact Q). unfold paint.
          rewrite (b_color _ _ _ B). reflexivity. }
        assert (Old : canvas d0 p = canvas d0 p0).
        { destruct (I1 p On) as [X|[R X]]; [congruence|apply Look, R]. }
        assert (Rp : region d0 p0 p).
        { destruct (I2 p (or_introl eq_refl)) as [->|(r0 & R0 & A0)]; [constructor; exact On0|].
          apply (region_step d0 p0 r0 p R0 A0 On Old). }
        apply (IH (neighbours p ++ rest) d1).
        -- exact B1'.
        -- apply (becomes_live _ _ _ B1).
        -- intros q Q. rewrite C1 by exact Q. destruct (point_eqb q p) eqn:Eqp; [|apply I1, Q].
           apply point_eqb_eq in Eqp. subst q. right. split; [exact Rp|reflexivity].
        -- intros q Q. apply in_app_iff in Q. destruct Q as [Q|Q]; [|apply I2; right; exact Q].
           right. exists p. split; [exact Rp|]. apply neighbours_in, Q.
        -- intros q t Q T A Oq Cq Ot. rewrite C1 in Cq by exact Q. rewrite C1 by exact T.
           destruct (point_eqb t p) eqn:Et; [left; reflexivity|].
           destruct (point_eqb q p) eqn:Eqp.
           ++ apply point_eqb_eq in Eqp. subst q. right. apply in_app_iff. left. apply neighbours_all; [exact A|].
              apply (display_pixel d0 t So0 T).
           ++ destruct (I3 q t Q T A Oq Cq Ot) as [X|[X|X]]; [left; exact X| |right; apply in_app_iff; right; exact X].
              subst t. rewrite (proj2 (point_eqb_eq _ _) eq_refl) in Et. discriminate.
        -- rewrite C1 by exact On0. destruct (point_eqb p0 p) eqn:Ep; [left; reflexivity|].
           destruct I4 as [X|[X|X]]; [left; exact X| |right; apply in_app_iff; right; exact X].
           subst p. rewrite (proj2 (point_eqb_eq _ _) eq_refl) in Ep. discriminate.
        -- assert (Less : (left_to_fill d0 d1 (canvas d0 p0) < left_to_fill d0 d (canvas d0 p0))%nat).
           { unfold left_to_fill.
             assert (Ext : filter (fun q => px_eqb (canvas d1 q) (canvas d0 p0)) (everything d0) =
                     filter (fun q => px_eqb (if point_eqb q p then l_color d0 else canvas d q) (canvas d0 p0)) (everything d0)).
             { apply filter_ext_in. intros q Q. apply everything_in in Q. rewrite C1 by exact Q. reflexivity. }
             rewrite Ext. apply (filter_fewer _ _ _ p).
             - intros q X. destruct (point_eqb q p) eqn:Z; [|exact X]. apply px_eqb_eq in X. congruence.
             - apply everything_in, On.
             - apply px_eqb_eq, Eq.
             - rewrite (proj2 (point_eqb_eq _ _) eq_refl). destruct (px_eqb (l_color d0) (canvas d0 p0)) eqn:X; [|reflexivity].
               apply px_eqb_eq in X. congruence. }
           rewrite app_length. pose proof (neighbours_length p). cbn [length] in Fuel. lia.
      * assert (Not : ~ (on_display d0 p /\ canvas d p = canvas d0 p0)) by (intros X; apply Is in X; discriminate).
        apply (IH rest d B L I1).
        -- intros q Q. apply I2. right. exact Q.
        -- intros q t Q T A Oq Cq Ot. destruct (I3 q t Q T A Oq Cq Ot) as [X|[X|X]]; auto. subst t.
           left. destruct (I1 p T) as [Y|[_ Y]]; [|exact Y]. exfalso. apply Not. split; [exact T|congruence].
        -- destruct I4 as [X|[X|X]]; auto. subst p. left. destruct (I1 p0 On0) as [Y|[_ Y]]; [|exact Y].
           exfalso. apply Not. split; [exact On0|exact Y].
        -- cbn [length] in Fuel. lia.
Qed.
End Fill.

Lemma bucket_fill_region encode d p color seed : sound d -> live d -> on_display d p ->
  ansi_of encode (canvas d p) = Some seed -> seed <> color -> l_color d <> canvas d p ->
  exists n d', (forall m, (n <= m)%nat -> bucket_fill encode p color m d = Some (Some d')) /\
    becomes (canvas d') d d' /\
    (forall q, on_display d q ->
       (region d p q /\ canvas d' q = l_color d) \/ (~ region d p q /\ canvas d' q = canvas d q)).
Proof.
  intros So L On Sd Ne Ink. set (n := (5 * left_to_fill d d (canvas d p) + 1)%nat).
  assert (Run : forall m, (n <= m)%nat -> exists d', fill_loop encode seed m [p] d = Some (Some d') /\ becomes (canvas d') d d' /\
    (forall q, on_display d q -> (region d p q /\ canvas d' q = l_color d) \/ (~ region d p q /\ canvas d' q = canvas d q))).
  { intros m M. apply fill_loop_spec; auto.
    - apply becomes_refl; assumption.
    - intros q [<-|[]]. left. reflexivity.
    - intros q r Q R A Oq Cq. congruence.
    - right. left. reflexivity. }
  assert (Mono : forall m k pend x y, fill_loop encode seed m pend x = Some (Some y) -> (m <= k)%nat ->
                   fill_loop encode seed k pend x = Some (Some y)).
  { induction m as [|m IH]; intros k pend x y E K.
    - destruct pend; [|discriminate E]. destruct k; exact E.
    - destruct pend as [|q rest]; [destruct k; exact E|]. destruct k as [|k]; [lia|]. cbn [fill_loop] in *.
      destruct (peek_pixel encode q x) as [r|]; cbn [bind] in *; [|discriminate].
      destruct (match r with Some c => (c =? seed)%N | None => false end).
      + destruct (draw_pixel q x) as [x1|]; cbn [bind] in *; [|discriminate]. apply IH; [exact E|lia].
      + apply IH; [exact E|lia]. }
  destruct (Run n (Nat.le_refl _)) as (d' & E & B & R). exists n, d'. split; [|auto].
  intros m M. unfold bucket_fill. rewrite (peek_on encode d p So On). cbn [bind]. rewrite Sd.
  rewrite (proj2 (N.eqb_neq _ _) Ne). apply (Mono n); assumption.
Qed.

Lemma fill_hangs encode d p r seed : adjacent p r -> sound d -> live d -> on_display d p -> on_display d r ->
  ansi_of encode (l_color d) = Some seed ->
  canvas d p = l_color d -> canvas d r = l_color d -> forall n pending,
  In p pending \/ In r pending -> fill_loop encode seed n pending d = Some None.
Proof.
  intros A So L Op Or Sd Cp Cr n. revert d So L Op Or Sd Cp Cr.
  induction n as [|n IH]; intros d So L Op Or Sd Cp Cr pending H;
    (destruct pending as [|q rest]; [destruct H as [[]|[]]|]); [reflexivity|].
  cbn [fill_loop].
  assert (Pk : exists k, peek_pixel encode q d = Some k /\
    (match k with Some c => (c =? seed)%N | None => false end = false -> q <> p /\ q <> r)).
  { destruct (on_display_dec d q) as [On|Off].
    - exists (ansi_of encode (canvas d q)). split; [apply peek_on; assumption|].
      intros X. split; intros ->; [rewrite Cp, Sd in X|rewrite Cr, Sd in X]; rewrite N.eqb_refl in X; discriminate.
    - exists None. split; [apply peek_off; assumption|]. intros _. split; intros ->; contradiction. }
  destruct Pk as (k & -> & Kn). cbn [bind].
  destruct (match k with Some c => (c =? seed)%N | None => false end) eqn:Test.
  - destruct (draw_pixel_becomes d q So L) as (d1 & -> & B1). cbn [bind].
    assert (C1 : forall x, on_display d x -> canvas d x = l_color d -> canvas d1 x = l_color d1).
    { intros x X E. rewrite (b_canvas _ _ _ B1) by exact X. unfold paint. rewrite (b_color _ _ _ B1). destruct (point_eqb x q); auto. }
    apply IH.
    + apply (b_sound _ _ _ B1).
    + apply (becomes_live _ _ _ B1).
    + apply (becomes_display _ _ _ _ B1), Op.
    + apply (becomes_display _ _ _ _ B1), Or.
    + rewrite (b_color _ _ _ B1). exact Sd.
    + apply C1; assumption.
    + apply C1; assumption.
    + assert (A' : adjacent r p) by (unfold adjacent in *; lia).
      destruct H as [[->|H]|[->|H]].
      * right. apply in_app_iff. left. apply neighbours_all; [exact A|apply (display_pixel d r So Or)].
      * left. apply in_app_iff. right. exact H.
      * left. apply in_app_iff. left. apply neighbours_all; [exact A'|apply (display_pixel d p So Op)].
      * right. apply in_app_iff. right. exact H.
  - apply IH; auto. destruct (Kn eq_refl) as [N1 N2]. destruct H as [[X|X]|[X|X]]; auto; congruence.
Qed.

(** * Histories *)

Lemma becomes_looks P d d' s : becomes P d d' -> looks_like d s -> looks_like d' (redraw P s).
Proof.
  intros B (A1 & A2 & A3). unfold redraw. split; [|split].
  - rewrite (b_sync _ _ _ B). exact A1.
  - rewrite (b_color _ _ _ B). exact A2.
  - intros p X. assert (X' := proj1 (becomes_display _ _ _ p B) X). cbn [drawn seen].
    split; [apply (b_canvas _ _ _ B), X'|]. rewrite (b_shown _ _ _ B) by exact X'. rewrite A1.
    destruct (together s); [reflexivity|]. apply A3, X'.
Qed.

Lemma redraw_ext P Q d' s : (forall p, on_display d' p -> P p = Q p) -> looks_like d' (redraw P s) -> looks_like d' (redraw Q s).
Proof.
  intros E (A1 & A2 & A3). split; [exact A1|]. split; [exact A2|]. intros p X. destruct (A3 p X) as [B1 B2].
  cbn [drawn seen redraw] in *. split; [rewrite B1; apply E, X|]. destruct (together s); [|exact B2]. rewrite B2. apply E, X.
Qed.

Lemma present_spec d : sound d -> live d ->
  exists d', present_canvas d = Some d' /\ sound d' /\ live d' /\ settings d d' /\
    (forall p, canvas d' p = canvas d p) /\ (forall p, on_display d p -> shown d' p = canvas d p).
Proof.
  intros So L. unfold present_canvas. destruct (l_sync d) eqn:Sy.
  - exists d. split; [reflexivity|]. split; [exact So|]. split; [exact L|]. split; [unfold settings; auto|]. split; [auto|].
    intros p X. apply L; assumption.
  - destruct (force_present_spec d So) as (d' & E & S' & T & _ & C & Sh). exists d'. split; [exact E|]. split; [exact S'|].
    split; [|auto]. intros _ p X. rewrite C. apply Sh. apply (on_display_settings d d' p T), X.
Qed.

Lemma perform_spec d s o : sound d -> live d -> looks_like d s -> allowed (l_width d) (l_height d) o ->
  exists d', perform o d = Some d' /\ sound d' /\ live d' /\ looks_like d' (effect o s) /\
    l_width d' = l_width d /\ l_height d' = l_height d.
Proof.
  intros So L Lk Al.
  assert (Draw : forall P Q d', becomes P d d' -> (forall p, on_display d p -> P p = Q p) ->
            sound d' /\ live d' /\ looks_like d' (redraw Q s) /\ l_width d' = l_width d /\ l_height d' = l_height d).
  { intros P Q d' B E. split; [apply (b_sound _ _ _ B)|]. split; [apply (becomes_live _ _ _ B)|].
    split; [|split; [apply (b_width _ _ _ B)|apply (b_height _ _ _ B)]].
    apply (redraw_ext P); [|apply (becomes_looks _ d); assumption]. intros p X. apply E, (becomes_display _ _ _ p B), X. }
  assert (C : forall p, on_display d p -> canvas d p = drawn s p) by (intros p X; apply Lk, X).
  assert (K : l_color d = ink s) by apply Lk.
  destruct o as [c| |p|l|p w h|p1 p2 w h|p w h Q| |b]; cbn [perform effect allowed] in *.
  - exists (set_draw_color c d). split; [reflexivity|]. split; [destruct So; constructor; assumption|]. split; [exact L|].
    split; [|split; reflexivity]. destruct Lk as (A & B & D). split; [exact A|]. split; [reflexivity|exact D].
  - destruct (clear_becomes d So L) as (d' & E & B). exists d'. split; [exact E|]. apply (Draw _ _ _ B). intros p _. exact K.
  - destruct (draw_pixel_becomes d p So L) as (d' & E & B). exists d'. split; [exact E|]. apply (Draw _ _ _ B).
    intros q X. unfold paint. rewrite K, C by exact X. reflexivity.
  - destruct (draw_all_becomes l d So L) as (d' & E & B). exists d'. split; [exact E|]. apply (Draw _ _ _ B).
    intros q X. unfold paint. rewrite K, C by exact X. reflexivity.
  - destruct (draw_rect_filled_becomes d p w h So L) as (d' & E & B); try lia. exists d'. split; [exact E|]. apply (Draw _ _ _ B).
    intros q X. unfold paint. rewrite K, C by exact X. reflexivity.
  - destruct Al as [A1 A2]. unfold box_inside in *.
    destruct (move_pixels_becomes d p1 p2 w h So L) as (d' & E & B).
    { unfold box_fits, on_display. lia. }
    { unfold box_fits, on_display. lia. }
    exists d'. split; [exact E|]. apply (Draw _ _ _ B).
    intros q X. unfold paste, paint. rewrite K. destruct (in_area (box p2 w h) q) eqn:I.
    + apply C. apply in_area_spec in I. unfold box in I. cbn [fst snd] in I. unfold on_display. cbn [fst snd]. lia.
    + rewrite C by exact X. reflexivity.
  - unfold box_inside in Al. destruct (put_pixels_becomes d p w h (block (box p w h) Q) Q So L) as (d' & E & B).
    { unfold box_fits, on_display. lia. }
    { reflexivity. }
    exists d'. split; [exact E|]. apply (Draw _ _ _ B). intros q X. unfold paste. rewrite C by exact X. reflexivity.
  - destruct (present_spec d So L) as (d' & E & S' & L' & (T1 & T2 & T3 & T4) & Cv & Sh). exists d'. split; [exact E|].
    split; [exact S'|]. split; [exact L'|]. split; [|auto]. destruct Lk as (A & B & D). split; [cbn; congruence|].
    split; [cbn; congruence|]. intros p X. assert (X' : on_display d p) by (unfold on_display in *; rewrite <- T1, <- T2; exact X).
    cbn [drawn seen]. rewrite Cv, Sh by exact X'. split; apply D, X'.
  - destruct b.
    + destruct (present_spec d So L) as (d' & E & S' & L' & (T1 & T2 & T3 & T4) & Cv & Sh). rewrite E. cbn [bind].
      exists (set_sync true d'). split; [reflexivity|]. split; [apply sound_sync, S'|].
      assert (X' : forall p, on_display (set_sync true d') p -> on_display d p)
        by (intros p X; unfold on_display, set_sync in *; cbn [with_sync l_width l_height] in X; rewrite <- T1, <- T2; exact X).
      split; [|split; [|split; assumption]].
      * intros _ p X. apply X' in X. change (shown d' p = canvas d' p). rewrite Cv. apply Sh, X.
      * destruct Lk as (A & B & D). split; [reflexivity|]. split; [cbn; congruence|]. intros p X. apply X' in X.
        change (canvas d' p = drawn s p /\ shown d' p = drawn s p). rewrite Cv, Sh by exact X. split; apply D, X.
    + exists (set_sync false d). split; [reflexivity|]. split; [apply sound_sync, So|]. split; [intros X; discriminate|].
      split; [|split; reflexivity]. destruct Lk as (A & B & D). split; [reflexivity|]. split; [exact B|exact D].
Qed.

Lemma perform_all_spec ops : forall d s, sound d -> live d -> looks_like d s -> Forall (allowed (l_width d) (l_height d)) ops ->
  exists d', do_all perform ops d = Some d' /\ sound d' /\ live d' /\ looks_like d' (fold_left (fun s o => effect o s) ops s) /\
    l_width d' = l_width d /\ l_height d' = l_height d.
Proof.
  induction ops as [|o ops IH]; intros d s So L Lk Al.
  - exists d. split; [reflexivity|]. auto.
  - inversion Al as [|? ? A1 A2]; subst. cbn [do_all fold_left].
    destruct (perform_spec d s o So L Lk A1) as (d1 & -> & S1 & L1 & Lk1 & W1 & H1). cbn [bind].
    rewrite <- W1, <- H1 in A2. destruct (IH d1 (effect o s) S1 L1 Lk1 A2) as (d2 & E & S2 & L2 & Lk2 & W2 & H2).
    exists d2. split; [exact E|]. split; [exact S2|]. split; [exact L2|]. split; [exact Lk2|]. split; congruence.
Qed.

Lemma start_spec w h zero white dev c : 0 < w <= 32768 -> 0 < h <= 32768 ->
  exists d, clear (set_draw_color c (new_lcd w h zero white dev)) = Some d /\ sound d /\ live d /\
    l_width d = w /\ l_height d = h /\ looks_like d (mkScreen (fun _ => c) (fun _ => c) true c).
Proof.
  intros W H. set (d0 := set_draw_color c (new_lcd w h zero white dev)).
  assert (L0 : Z.of_nat (length (l_fb d0)) = l_width d0 * l_height d0)
    by (cbn; rewrite repeat_length; nia).
  unfold clear, fill. set (a := ((0, 0), (l_width d0 - 1, l_height d0 - 1))).
  destruct (fill_rows_fb d0 0 (l_width d0 - 1) (l_color d0) ltac:(lia) ltac:(cbn; lia) (range 0 (l_height d0 - 1)) (l_fb d0) L0)
    as (fb' & E & L & N).
  { intros y Y. apply range_in in Y. lia. }
  rewrite E. cbn [bind]. eexists. split; [reflexivity|].
  assert (C : forall p, on_display d0 p -> nth (Z.to_nat (snd p * l_width d0 + fst p)) fb' [] = c).
  { intros p X. rewrite N by apply X.
    assert (A : existsb (fun y' => y' =? snd p) (range 0 (l_height d0 - 1)) && ((0 <=? fst p) && (fst p <=? l_width d0 - 1)) = true).
    { rewrite <- in_area_rows. apply in_area_spec. unfold on_display in X. cbn [fst snd]. lia. }
    rewrite A. reflexivity. }
  set (data := flat_map _ _).
  assert (Sh : forall p, on_display d0 p -> set_data a data dev (fst p) (snd p) = c).
  { intros p X.
    assert (A : in_area a p = true) by (apply in_area_spec; unfold on_display in X; unfold a; cbn [fst snd]; lia).
    rewrite set_data_in by exact A. unfold data. rewrite repeat_row by (cbn; lia).
    apply (area_data (fun _ _ => c) a p _ A). }
  split; [|split; [|split; [reflexivity|split; [reflexivity|]]]].
  - constructor.
    + exact W.
    + exact H.
    + cbn [l_fb with_fb with_dev]. unfold with_dev, with_fb. cbn [l_fb]. rewrite L. exact L0.
    + discriminate.
    + intros p X _. etransitivity; [apply Sh, X|]. symmetry. apply C, X.
  - intros _ p X. etransitivity; [apply Sh, X|]. symmetry. apply C, X.
  - split; [reflexivity|]. split; [reflexivity|]. intros p X. split; [apply C, X|apply Sh, X].
Qed.
