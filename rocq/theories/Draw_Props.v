(** C43, C56, C57 and C58: what the drawing primitives draw. *)
From Verif Require Import Base Draw_Model Draw_Spec Draw_Proofs.
Local Open Scope Z_scope.
Local Open Scope list_scope.

(** * C43: lines *)

(** A line goes from one end to the other without gaps or repeated pixels, has one pixel for every
    step of its longest side, stays in the box of its ends, and is never more than half a pixel away
    from the ideal line. *)
Theorem C43_line p q : pixel p -> pixel q ->
  let l := draw_line p q in
  (joins p q l \/ joins q p l) /\ unbroken l /\ NoDup l /\
  Z.of_nat (length l) = distance p q + 1 /\
  forall r, In r l -> in_box p q r /\ near_line p q r.
Proof.
  intros P Q l. destruct (draw_line_good p q P Q) as [(A & B & C & D & E)|(A & B & C & D & E)].
  - split; [left; exact B|split; [exact C|split; [exact D|split; [exact A|exact E]]]].
  - rewrite distance_sym in A. split; [right; exact B|split; [exact C|split; [exact D|split; [exact A|]]]].
    intros r R. apply E in R. destruct R. split; [apply in_box_sym|apply near_line_sym]; assumption.
Qed.
Print Assumptions C43_line.

(** Both ends are drawn. *)
Theorem C43_ends p q : pixel p -> pixel q -> In p (draw_line p q) /\ In q (draw_line p q).
Proof.
  intros P Q. destruct (draw_line_good p q P Q) as [(_ & B & _)|(_ & B & _)]; apply joins_in in B; tauto.
Qed.
Print Assumptions C43_ends.

(** It does not matter which end comes first. *)
Theorem C43_direction p q : pixel p -> pixel q -> draw_line p q = draw_line q p.
Proof. apply draw_line_comm. Qed.
Print Assumptions C43_direction.

Example C43_case :
  pixel (-32768, 5) /\ pixel (32767, -9) /\
  draw_line (1, 5) (6, 3) = [(1, 5); (2, 5); (3, 4); (4, 4); (5, 3); (6, 3)] /\
  draw_line (4, 0) (3, -2) = [(3, -2); (3, -1); (4, 0)].
Proof. repeat split; try reflexivity; cbn; unfold is16; lia. Qed.

(** * C56: circles *)

(** The border of a circle, for every center and radius that fit in the coordinates: the outermost
    pixels of the disc in each direction, the four tips left out. *)
Theorem C56_circle c r : 2 <= r -> r <= 16383 -> circle_fits c r ->
  exists l, draw_circle c r = Ok (Some l) /\
    forall p, In p l <-> on_circle r (fst p - fst c) (snd p - snd c).
Proof. apply draw_circle_in. Qed.
Print Assumptions C56_circle.

(** A filled circle is the whole disc with the same tips left out. *)
Theorem C56_disc c r : 2 <= r -> r <= 16383 -> circle_fits c r ->
  exists l, draw_circle_filled c r = Ok (Some l) /\
    forall p, In p l <-> in_disc r (fst p - fst c) (snd p - snd c).
Proof. apply draw_circle_filled_in. Qed.
Print Assumptions C56_disc.

(** The border is part of the disc. *)
Theorem C56_border_of_disc c r l l' : 2 <= r -> r <= 16383 -> circle_fits c r ->
  draw_circle c r = Ok (Some l) -> draw_circle_filled c r = Ok (Some l') -> incl l l'.
Proof.
  intros R1 R2 F L L' p H.
  destruct (draw_circle_in c r R1 R2 F) as (w & W & X). destruct (draw_circle_filled_in c r R1 R2 F) as (w' & W' & X').
  assert (w = l) as -> by congruence. assert (w' = l') as -> by congruence.
  apply X in H. apply X'. unfold on_circle in H. cbn zeta in H. destruct H as (A & B & _). unfold in_disc.
  split; [lia|split; [lia|]].
  rewrite <- (Z.abs_square (fst p - fst c)), <- (Z.abs_square (snd p - snd c)).
  destruct (Z.max_spec (Z.abs (fst p - fst c)) (Z.abs (snd p - snd c))) as [[M1 M2]|[M1 M2]]; rewrite M2 in B;
    [rewrite Z.min_l in B by lia|rewrite Z.min_r in B by lia]; lia.
Qed.
Print Assumptions C56_border_of_disc.

(** Small and big radiuses. *)
Theorem C56_edge_cases c r :
  draw_circle c 0 = Ok (Some []) /\ draw_circle c 1 = Ok (Some [c]) /\
  draw_circle_filled c 0 = Ok (Some []) /\ draw_circle_filled c 1 = Ok (Some [c]) /\
  (16383 < r -> draw_circle c r = Err tt /\ draw_circle_filled c r = Err tt).
Proof.
  repeat split; unfold draw_circle, draw_circle_filled, circle_steps;
    (destruct (r =? 0) eqn:E0; [apply Z.eqb_eq in E0; lia|]);
    (destruct (r =? 1) eqn:E1; [apply Z.eqb_eq in E1; lia|]);
    (destruct (32767 <? 2 * r) eqn:E; [reflexivity|apply Z.ltb_ge in E; lia]).
Qed.
Print Assumptions C56_edge_cases.

(** A circle that does not fit shows up at the other side of the coordinates. *)
Theorem C56_far_refuted : exists c r l p, pixel c /\ 2 <= r <= 16383 /\ draw_circle c r = Ok (Some l) /\
  In p l /\ ~ on_circle r (fst p - fst c) (snd p - snd c).
Proof.
  exists (32767, 0), 2. eexists. exists (-32768, 0). split; [split; cbn; unfold is16; lia|]. split; [lia|].
  split; [reflexivity|]. split; [cbn; auto 10|]. unfold on_circle. cbn. lia.
Qed.
Print Assumptions C56_far_refuted.

Example C56_case :
  circle_fits (10, 20) 3 /\ on_circle 3 2 (-2) /\ ~ on_circle 3 3 0 /\ in_disc 3 0 (-1) /\ ~ in_disc 3 0 3.
Proof. unfold circle_fits, is16, on_circle, in_disc. cbn. lia. Qed.

(** * C57: polygons, triangles and rectangles *)

(** The outline of a polygon is the lines of all its edges, the closing one included. *)
Theorem C57_outline points p : (2 <= length points)%nat ->
  (In p (draw_poly points) <-> exists a b, In (a, b) (edges points) /\ In p (draw_line a b)).
Proof. apply draw_poly_in. Qed.
Print Assumptions C57_outline.

(** A filled polygon is its outline and the pixels inside by the even-odd rule, for polygons of any
    number of edges, convex or not, crossing themselves or not. *)
Theorem C57_filled points p : Forall small points -> (2 <= length points)%nat ->
  (In p (draw_poly_filled points) <->
   inside points p \/ exists a b, In (a, b) (edges points) /\ In p (draw_line a b)).
Proof.
  intros H L. unfold draw_poly_filled. rewrite in_app_iff, fill_polygon_in, draw_poly_in by assumption. reflexivity.
Qed.
Print Assumptions C57_filled.

(** Crossings are on the edges: the fill does not leave the box of the polygon. *)
Theorem C57_in_box points y x : Forall small points -> In x (columns points y) ->
  exists p q, In (p, q) (edges points) /\ between (fst p) (fst q) x /\ between (snd p) (snd q) y.
Proof.
  intros _ H. unfold columns in H. apply in_map_iff in H. destruct H as ([p q] & <- & H).
  apply filter_In in H. destruct H as [I C]. exists p, q. split; [exact I|].
  split; [apply (crossing_within y (p, q) C)|]. pose proof (crosses_range y (p, q) C) as R. cbn [fst snd] in R.
  unfold between. lia.
Qed.
Print Assumptions C57_in_box.

(** Triangles are polygons. *)
Theorem C57_triangle p1 p2 p3 p : small p1 -> small p2 -> small p3 ->
  (In p (draw_tri p1 p2 p3) <-> exists a b, In (a, b) (edges [p1; p2; p3]) /\ In p (draw_line a b)) /\
  (In p (draw_tri_filled p1 p2 p3) <->
   inside [p1; p2; p3] p \/ exists a b, In (a, b) (edges [p1; p2; p3]) /\ In p (draw_line a b)).
Proof.
  intros A B C.
  assert (X : draw_tri p1 p2 p3 = draw_poly [p1; p2; p3]).
  { unfold draw_tri, draw_poly. cbn [draw_path last]. rewrite app_nil_r, <- !app_assoc. reflexivity. }
  assert (Fs : Forall small [p1; p2; p3]) by auto.
  assert (L : (2 <= length [p1; p2; p3])%nat) by (cbn; lia).
  unfold draw_tri_filled. rewrite in_app_iff, (fill_polygon_in _ _ Fs), X, (draw_poly_in _ _ L).
  split; reflexivity.
Qed.
Print Assumptions C57_triangle.

(** The products of far coordinates overflow. *)
Theorem C57_far_refuted : exists points p, Forall pixel points /\ inside points p /\ ~ In p (fill_polygon points).
Proof.
  exists [(-32768, -32768); (32767, 32767); (-32768, 32767)], (0, 32766). split; [|split].
  - repeat constructor; cbn; lia.
  - right. vm_compute. reflexivity.
  - unfold fill_polygon. rewrite fill_rows_in. intros (t & _ & H).
    assert (R : t = 32766).
    { pose proof (spans_row _ _ _ _ (Nat.le_refl _) H) as R. cbn [snd] in R.
      unfold clamp_i16 in R. destruct (32767 <? t) eqn:A; [lia|]. destruct (t <? -32768) eqn:B; [lia|].
      apply Z.ltb_ge in A, B. rewrite to_i16_id in R by (unfold is16; lia). lia. }
    subst t. change (sort_z _) with [-32771; -32768] in H. cbn [spans] in H. rewrite app_nil_r in H.
    change (clamp_i16 (-32771)) with (-32768) in H. change (clamp_i16 (-32768)) with (-32768) in H.
    apply draw_horizontal in H; try apply clamp_is16; unfold is16; cbn [fst] in *; lia.
Qed.
Print Assumptions C57_far_refuted.

(** A shape is drawn if it is not just one point, and a filled triangle if it has some area. *)
Theorem C57_degenerate points p1 p2 p3 :
  (poly_points points = true <-> exists p q, In p points /\ In q points /\ p <> q) /\
  (tri_points p1 p2 p3 = true <-> ~ collinear p1 p2 p3).
Proof. split; [apply poly_points_spec|apply tri_points_spec]. Qed.
Print Assumptions C57_degenerate.

(** A rectangle of a position and a size is the border of that many pixels. *)
Theorem C57_rectangle x y w h p : is16 x -> is16 y -> 1 <= w <= 65535 -> 1 <= h <= 65535 ->
  is16 (x + w - 1) -> is16 (y + h - 1) ->
  (In p (draw_rect (x, y) w h) <-> on_border (x, y) (x + w - 1, y + h - 1) p).
Proof. apply draw_rect_in. Qed.
Print Assumptions C57_rectangle.

(** A rectangle of two corners ends one pixel before the biggest coordinates, and is not drawn at all
    if its corners are in one row or one column. *)
Theorem C57_corners p q : pixel p -> pixel q ->
  match rect_points p q with
  | None => fst p = fst q \/ snd p = snd q
  | Some (c, w, h) =>
    fst p <> fst q /\ snd p <> snd q /\
    forall r, In r (draw_rect c w h) <->
      on_border (Z.min (fst p) (fst q), Z.min (snd p) (snd q))
                (Z.max (fst p) (fst q) - 1, Z.max (snd p) (snd q) - 1) r
  end.
Proof.
  destruct p as [x1 y1], q as [x2 y2]. intros [A B] [C D]. cbn [fst snd] in *.
  rewrite rect_points_spec by assumption. destruct (x1 =? x2) eqn:E; [apply Z.eqb_eq in E; left; exact E|].
  apply Z.eqb_neq in E. destruct (y1 =? y2) eqn:F; [apply Z.eqb_eq in F; right; exact F|]. apply Z.eqb_neq in F.
  split; [exact E|split; [exact F|]]. intros r. unfold is16 in *. rewrite draw_rect_in by (unfold is16; lia).
  replace (Z.min x1 x2 + Z.abs (x2 - x1) - 1) with (Z.max x1 x2 - 1) by lia.
  replace (Z.min y1 y2 + Z.abs (y2 - y1) - 1) with (Z.max y1 y2 - 1) by lia. reflexivity.
Qed.
Print Assumptions C57_corners.

(** So the second corner, which a user gives, is not drawn. *)
Theorem C57_far_corner_refuted : exists p q, pixel p /\ pixel q /\
  match rect_points p q with Some (c, w, h) => ~ In q (draw_rect c w h) | None => False end.
Proof.
  exists (1, 1), (4, 3). split; [split; cbn; unfold is16; lia|]. split; [split; cbn; unfold is16; lia|].
  vm_compute. intuition discriminate.
Qed.
Print Assumptions C57_far_corner_refuted.

Example C57_case :
  Forall small [(0, 0); (4, 0); (4, 4); (0, 4)] /\
  inside [(0, 0); (4, 0); (4, 4); (0, 4)] (2, 1) /\ ~ inside [(0, 0); (4, 0); (4, 4); (0, 4)] (5, 1) /\
  inside [(0, 0); (8, 6); (8, 0); (0, 6)] (1, 3) /\ ~ inside [(0, 0); (8, 6); (8, 0); (0, 6)] (4, 0) /\
  on_border (1, 1) (4, 3) (4, 2).
Proof.
  split; [repeat constructor; cbn; lia|]. unfold inside, on_border, in_box, between. vm_compute.
  repeat split; try (right; reflexivity); try discriminate; auto; intuition discriminate.
Qed.

(** * C58: text *)

(** The pixels of a text are the dots of the glyphs of its characters, one glyph after another. *)
Theorem C58_text f px py text p : (f_width f <= 8 * f_stride f)%nat ->
  is16 px -> is16 py -> is16 (py + Z.of_nat (f_height f)) ->
  is16 (px + Z.of_nat (length text * f_width f + 8 * f_stride f)) ->
  (In p (draw_text f (px, py) text) <->
   exists n c col row, nth_error text n = Some c /\ dot f c col row /\
     p = (px + Z.of_nat (n * f_width f + col), py + Z.of_nat row)).
Proof.
  intros W X Y Y2 X2. apply draw_text_in; auto. intros j J. unfold is16 in *. lia.
Qed.
Print Assumptions C58_text.

(** Characters without a glyph look like a question mark. *)
Theorem C58_unknown f px py c : (c < 32)%N \/ (126 < c)%N ->
  draw_char f (px, py) c = draw_char f (px, py) 63%N.
Proof.
  intros H. unfold draw_char, glyph_byte.
  assert (((32 <=? c) && (c <=? 126))%N%bool = false) as ->; [|reflexivity].
  destruct (32 <=? c)%N eqn:A; [|reflexivity]. apply N.leb_le in A. destruct (c <=? 126)%N eqn:B; [|reflexivity].
  apply N.leb_le in B. lia.
Qed.
Print Assumptions C58_unknown.

Example C58_case :
  let f := mkFont 3 2 1 [0; 0; 64; 160]%N in
  (f_width f <= 8 * f_stride f)%nat /\ draw_text f (5, 7) [32; 33]%N = [(9, 7); (8, 8); (10, 8)].
Proof. split; [cbn; lia|reflexivity]. Qed.
