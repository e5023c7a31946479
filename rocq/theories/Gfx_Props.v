(** Theorems about the graphical console: text (C59), cursor and alternate screen (C60), shapes (C61). *)
From Coq Require Import String.
From Verif Require Import Base Colors_Model Draw_Model Draw_Spec Draw_Proofs Lcd_Model Lcd_Spec Lcd_Proofs Gfx_Model Gfx_Spec Gfx_Proofs.
Local Open Scope string_scope.
Local Open Scope Z_scope.
Local Open Scope list_scope.

(** ** A small console for the examples *)

(** Glyphs of 2 by 2 dots: the space is blank and all other characters have a diagonal. *)
Definition tiny : font := mkFont 2 2 1 (0 :: 0 :: flat_map (fun _ => [128; 64]) (seq 0 94))%N.
Definition setup1 : setup := mkSetup (fun c => let '(r, g, b) := c in [r; g; b]) tiny 15%N 0%N.
(** Two columns and two rows in 5 by 4 pixels, and in 4 by 4 pixels. *)
Definition sizes5 : sizes := mkSizes 5 4 2 2.
Definition sizes4 : sizes := mkSizes 4 4 2 2.
Definition start5 : option con := new_con setup1 (new_lcd (s_w sizes5) (s_h sizes5) [] [] (fun _ _ => [])).
Opaque start5.
(** What is in the canvas, 1 for white and 0 for black. *)
Definition bits (g : con) : list N := map (fun p => match p with 255%N :: _ => 1%N | _ => 0%N end) (l_fb (c_lcd g)).

Lemma sizes5_good : good_sizes setup1 sizes5.
Proof. constructor; cbn; try lia; try reflexivity. Qed.
Lemma sizes4_good : good_sizes setup1 sizes4.
Proof. constructor; cbn; try lia; try reflexivity. Qed.

(** * C59: text in cells *)

(** A new console is blank with a cursor in its corner, whatever the device showed. *)
Theorem C59_start : forall u z zero white dev, good_sizes u z ->
  let P := fun _ : point => encode u (rgb_of (def_bg u)) in
  let v := show u z (mkView P P 0 0 true None None None) (P, 0, 0) in
  exists g, new_con u (new_lcd (s_w z) (s_h z) zero white dev) = Some g /\ agrees u z g (v, v_screen v, true).
Proof. exact new_con_spec. Qed.
Print Assumptions C59_start.

(** Any sequence of console operations has the effects of a picture with a cursor on it, in which text
    is typed character by character, going to the next line when there is no room in this one and
    scrolling up after the last one.  None panics or fails, and the device follows the picture exactly
    when it has to. *)
Theorem C59_histories : forall u z ops g s, good_sizes u z -> agrees u z g s -> all_fine u z ops (fst (fst s)) ->
  exists g', run_ops u ops g = Some g' /\ agrees u z g' (fold_left (effect_of u z) ops s).
Proof. intros u z ops g s Gs. revert g s. apply run_ops_spec, Gs. Qed.
Print Assumptions C59_histories.

(** Both in one, in pixels. *)
Theorem C59_from_start : forall u z zero white dev ops, good_sizes u z ->
  let P := fun _ : point => encode u (rgb_of (def_bg u)) in
  let v := show u z (mkView P P 0 0 true None None None) (P, 0, 0) in
  all_fine u z ops v ->
  exists g, bind (new_con u (new_lcd (s_w z) (s_h z) zero white dev)) (run_ops u ops) = Some g /\
    let '(v', seen, _) := fold_left (effect_of u z) ops (v, v_screen v, true) in
    c_cursor g = (v_x v', v_y v') /\
    forall x y, 0 <= x < s_w z -> 0 <= y < s_h z ->
      canvas (c_lcd g) (x, y) = v_screen v' (x, y) /\ shown (c_lcd g) (x, y) = seen (x, y).
Proof.
  intros u z zero white dev ops Gs P v Fn. destruct (new_con_spec u z zero white dev Gs) as (g & -> & G). cbn [bind].
  destruct (run_ops_spec u z ops Gs g _ G Fn) as (g' & E & G'). exists g'. split; [exact E|]. fold P v in G'.
  destruct (fold_left (effect_of u z) ops (v, v_screen v, true)) as [[v' seen] sync]. split; [apply (a_cursor _ _ _ _ G')|].
  intros x y X Y. assert (On : on z (x, y)) by (split; assumption).
  split; [apply (a_canvas _ _ _ _ G' _ On)|apply (a_seen _ _ _ _ G' _ On)].
Qed.
Print Assumptions C59_from_start.

(** Where a character goes: the text written from the first column of a row fills the rows in order, and
    changes nothing else.  (There is room for it: longer texts scroll.) *)
Theorem C59_cells : forall u z fg bg P y text, good_sizes u z -> 0 <= y < rows z ->
  y + (Z.of_nat (List.length text) - 1) / cols z < rows z ->
  exists P' x' y', type_text z (glyphs u) fg bg text (P, 0, y) = (P', x', y') /\
    (forall i c p, nth_error text i = Some c ->
       let x := Z.of_nat i mod cols z in let r := y + Z.of_nat i / cols z in
       in_area (cell z x r) p = true ->
       P' p = if lit (glyphs u) c (fst p - x * s_gw z) (snd p - r * s_gh z) then fg else bg) /\
    (forall p, (forall i, (i < List.length text)%nat -> in_area (cell z (Z.of_nat i mod cols z) (y + Z.of_nat i / cols z)) p = false) ->
       P' p = P p).
Proof.
  intros u z fg bg P y text Gs Y R. destruct (type_text_cells u z fg bg P y Gs text) as (P' & E & A & B); try lia.
  eexists P', _, _. split; [exact E|]. split; [exact A|exact B].
Qed.
Print Assumptions C59_cells.

(** Writing and then reading the code: [abc] takes a row and a half, with the cursor after it. *)
Example C59_case :
  match bind start5 (run_ops setup1 [GHide; GWrite (u "ab"); GWrite (u "c"); GPrint (u "d"); GPrint (u "e")]) with
  | Some g => bits g = [1; 0; 0; 0; 0;  0; 1; 0; 0; 0;  0; 0; 0; 0; 0;  0; 0; 0; 0; 0]%N /\ c_cursor g = (0, 1)
  | None => False
  end.
Proof. vm_compute. split; reflexivity. Qed.

Example C59_fine :
  let P := fun _ : point => encode setup1 (rgb_of (def_bg setup1)) in
  let v := show setup1 sizes5 (mkView P P 0 0 true None None None) (P, 0, 0) in
  all_fine setup1 sizes5 [GHide; GWrite (u "ab"); GWrite (u "c"); GPrint (u "d"); GPrint (u "e"); GShow; GLocate 1 1; GClear UntilNewLine] v.
Proof. vm_compute. intuition (congruence || discriminate). Qed.

(** Text that fills a row leaves the cursor after the last column.  If there are no pixels there, and
    the cursor is visible, the console panics: there is nothing to save under the cursor. *)
Theorem C59_full_row_refuted : exists u z g text,
  good_sizes u z /\ new_con u (new_lcd (s_w z) (s_h z) [] [] (fun _ _ => [])) = Some g /\
  Z.of_nat (List.length text) = cols z /\ write u text g = None.
Proof.
  assert (W : forall o : option con, match bind o (write setup1 (u "ab")), o with None, Some _ => true | _, _ => false end = true ->
            exists g, o = Some g /\ write setup1 (u "ab") g = None).
  { intros [g|] H; [|discriminate]. exists g. split; [reflexivity|]. cbn [bind] in H. destruct (write setup1 (u "ab") g); [discriminate|reflexivity]. }
  destruct (W (new_con setup1 (new_lcd (s_w sizes4) (s_h sizes4) [] [] (fun _ _ => [])))) as (g & E1 & E2); [vm_compute; reflexivity|].
  exists setup1, sizes4, g, (u "ab"). split; [exact sizes4_good|]. split; [exact E1|]. split; [reflexivity|exact E2].
Qed.
Print Assumptions C59_full_row_refuted.

(** * C60: the cursor and the alternate screen *)

(** The picture without the cursor does not depend on where the cursor has been. *)
Theorem C60_cursor_trace : forall u z g s ops g1 g2, good_sizes u z -> agrees u z g s ->
  all_fine u z ops (fst (fst s)) ->
  (forall o, In o ops -> match o with GLocate _ _ | GMove _ | GHide | GShow | GSync _ | GSyncNow => True | _ => False end) ->
  run_ops u (ops ++ [GHide]) g = Some g1 -> run_ops u [GHide] g = Some g2 ->
  forall p, on z p -> canvas (c_lcd g1) p = canvas (c_lcd g2) p.
Proof.
  intros u z g s ops g1 g2 Gs G Fn Only E1 E2 p On.
  assert (Same : forall ops s, (forall o, In o ops -> match o with GLocate _ _ | GMove _ | GHide | GShow | GSync _ | GSyncNow => True | _ => False end) ->
            v_under (fst (fst (fold_left (effect_of u z) ops s))) = v_under (fst (fst s))).
  { clear. induction ops as [|o ops IH]; intros s Only; [reflexivity|]. cbn [fold_left]. rewrite IH by (intros o' O'; apply Only; right; exact O').
    rewrite effect_view. specialize (Only o (or_introl eq_refl)). destruct o; cbn [effect_on] in *; try contradiction; try reflexivity.
    destruct (v_on (fst (fst s))); reflexivity. }
  assert (Hide : forall v, fine u z GHide v) by (intros v; split; [intros X; discriminate|exact I]).
  assert (Fn' : all_fine u z (ops ++ [GHide]) (fst (fst s))).
  { clear - Fn Hide. revert Fn. generalize (fst (fst s)). induction ops as [|o ops IH]; intros v Fn; cbn [app all_fine] in *; [split; [apply Hide|exact I]|].
    destruct Fn as [F1 F2]. split; [exact F1|]. apply IH, F2. }
  destruct (run_ops_spec u z (ops ++ [GHide]) Gs g s G Fn') as (g1' & E1' & G1).
  destruct (run_ops_spec u z [GHide] Gs g s G) as (g2' & E2' & G2); [split; [apply Hide|exact I]|].
  assert (g1' = g1) as -> by congruence. assert (g2' = g2) as -> by congruence.
  rewrite (a_canvas _ _ _ _ G1 p On), (a_canvas _ _ _ _ G2 p On). rewrite fold_left_app. cbn [fold_left]. rewrite !effect_view. cbn [effect_on v_screen].
  rewrite Same by exact Only. reflexivity.
Qed.
Print Assumptions C60_cursor_trace.

(** With the cursor hidden, leaving the alternate screen brings everything back: the picture, the
    cursor and the colors, whatever happened meanwhile. *)
Theorem C60_alternate_screen : forall u z g v seen sync ops, good_sizes u z -> agrees u z g (v, seen, sync) ->
  v_on v = false -> v_alt v = None ->
  (forall o, In o ops -> o <> GEnterAlt /\ o <> GLeaveAlt) ->
  all_fine u z (GEnterAlt :: ops ++ [GHide; GLeaveAlt]) v ->
  exists g', run_ops u (GEnterAlt :: ops ++ [GHide; GLeaveAlt]) g = Some g' /\
    (forall p, on z p -> canvas (c_lcd g') p = canvas (c_lcd g) p) /\
    c_cursor g' = c_cursor g /\ c_ansi_fg g' = c_ansi_fg g /\ c_ansi_bg g' = c_ansi_bg g /\ c_visible g' = false.
Proof.
  intros u z g v seen sync ops Gs G On Al Only Fn.
  destruct (run_ops_spec u z _ Gs g (v, seen, sync) G Fn) as (g' & E & G'). exists g'. split; [exact E|].
  assert (Alt : forall ops s, (forall o, In o ops -> o <> GEnterAlt /\ o <> GLeaveAlt) ->
            v_alt (fst (fst (fold_left (effect_of u z) ops s))) = v_alt (fst (fst s))).
  { clear. induction ops as [|o ops IH]; intros s Only; [reflexivity|]. cbn [fold_left]. rewrite IH by (intros o' O'; apply Only; right; exact O').
    rewrite effect_view. destruct (Only o (or_introl eq_refl)) as [N1 N2].
    destruct o as [[]|fg bg| | |x y|off|text|text|l|p| | |b|]; cbn [effect_on]; try contradiction; try reflexivity.
    - destruct (0 <? v_x (fst (fst s))); reflexivity.
    - destruct (v_on (fst (fst s))); reflexivity.
    - destruct (next_line _ _ _) as [[? ?] ?]. reflexivity.
    - destruct (type_text _ _ _ _ _ _) as [[? ?] ?]. reflexivity. }
  set (s' := fold_left (effect_of u z) (GEnterAlt :: ops ++ [GHide; GLeaveAlt]) (v, seen, sync)) in *.
  assert (V : fst (fst s') = effect_on u z GLeaveAlt (effect_on u z GHide (fst (fst (fold_left (effect_of u z) ops (effect_of u z (v, seen, sync) GEnterAlt)))))).
  { unfold s'. cbn [fold_left]. rewrite fold_left_app. cbn [fold_left]. rewrite !effect_view. reflexivity. }
  set (w := fst (fst (fold_left (effect_of u z) ops (effect_of u z (v, seen, sync) GEnterAlt)))) in *.
  assert (Aw : v_alt w = Some (v_screen v, (v_x v, v_y v), (v_fg v, v_bg v))).
  { unfold w. rewrite Alt by exact Only. rewrite effect_view. reflexivity. }
  cbn [effect_on] in V. cbn [v_alt v_under v_x v_y v_on v_fg v_bg] in V. rewrite Aw in V.
  split; [|split; [|split; [|split]]].
  - intros p X. rewrite (a_canvas _ _ _ _ G' p X), V. cbn [show v_screen v_on]. symmetry. apply (a_canvas _ _ _ _ G p X).
  - rewrite (a_cursor _ _ _ _ G'), V. cbn [show v_x v_y]. symmetry. apply (a_cursor _ _ _ _ G).
  - rewrite (proj1 (a_fg _ _ _ _ G')), V. cbn [show v_fg]. symmetry. apply (a_fg _ _ _ _ G).
  - rewrite (proj1 (a_bg _ _ _ _ G')), V. cbn [show v_bg]. symmetry. apply (a_bg _ _ _ _ G).
  - rewrite (a_visible _ _ _ _ G'), V. reflexivity.
Qed.
Print Assumptions C60_alternate_screen.

Example C60_case :
  match bind start5 (run_ops setup1 [GHide; GWrite (u "ab"); GEnterAlt; GColor (Some 1%N) None; GPrint (u "xyz"); GHide; GLeaveAlt]) with
  | Some g => bits g = [1; 0; 1; 0; 0;  0; 1; 0; 1; 0;  0; 0; 0; 0; 0;  0; 0; 0; 0; 0]%N /\ c_cursor g = (2, 0) /\ c_ansi_fg g = None
  | None => False
  end.
Proof. vm_compute. repeat split; reflexivity. Qed.

(** Entering it twice and leaving it without having entered are errors that change nothing. *)
Theorem C60_alternate_errors : forall u z g s, agrees u z g s ->
  (v_alt (fst (fst s)) <> None -> enter_alt u g = Some (Err tt)) /\
  (v_alt (fst (fst s)) = None -> leave_alt u g = Some (Err tt)).
Proof.
  intros u z g s G. pose proof (a_alt _ _ _ _ G) as A. unfold enter_alt, leave_alt.
  split; intros H; destruct (v_alt (fst (fst s))) as [[[P [x y]] [fg bg]]|]; try congruence;
    destruct (c_alt g); try contradiction; reflexivity.
Qed.
Print Assumptions C60_alternate_errors.

Example C60_errors_case :
  match bind start5 (run_ops setup1 [GEnterAlt]) with Some g => enter_alt setup1 g = Some (Err tt) | None => False end.
Proof. vm_compute. reflexivity. Qed.

(** With the cursor visible, the cursor is saved as part of the picture: it comes back as a mark that
    stays when the real cursor goes away. *)
Theorem C60_ghost_refuted : exists u z g g1 g2 p, good_sizes u z /\ on z p /\
  new_con u (new_lcd (s_w z) (s_h z) [] [] (fun _ _ => [])) = Some g /\
  run_ops u [GHide] g = Some g1 /\ run_ops u [GEnterAlt; GLeaveAlt; GHide] g = Some g2 /\
  canvas (c_lcd g1) p <> canvas (c_lcd g2) p.
Proof.
  assert (W : forall o : option con,
            match o with
            | Some g => match run_ops setup1 [GHide] g, run_ops setup1 [GEnterAlt; GLeaveAlt; GHide] g with
                        | Some g1, Some g2 => negb (ustr_eqb (canvas (c_lcd g1) (0, 0)) (canvas (c_lcd g2) (0, 0)))
                        | _, _ => false
                        end
            | None => false
            end = true ->
            exists g g1 g2, o = Some g /\ run_ops setup1 [GHide] g = Some g1 /\ run_ops setup1 [GEnterAlt; GLeaveAlt; GHide] g = Some g2 /\
              canvas (c_lcd g1) (0, 0) <> canvas (c_lcd g2) (0, 0)).
  { intros [g|] H; [|discriminate]. destruct (run_ops setup1 [GHide] g) as [g1|] eqn:E1; [|discriminate].
    destruct (run_ops setup1 [GEnterAlt; GLeaveAlt; GHide] g) as [g2|] eqn:E2; [|discriminate]. exists g, g1, g2.
    split; [reflexivity|]. split; [exact E1|]. split; [exact E2|]. apply ustr_eqb_neq, negb_true_iff, H. }
  destruct (W (new_con setup1 (new_lcd (s_w sizes5) (s_h sizes5) [] [] (fun _ _ => [])))) as (g & g1 & g2 & E0 & E1 & E2 & Ne); [vm_compute; reflexivity|].
  exists setup1, sizes5, g, g1, g2, (0, 0). split; [exact sizes5_good|]. split; [unfold on; cbn; lia|].
  split; [exact E0|]. split; [exact E1|]. split; [exact E2|exact Ne].
Qed.
Print Assumptions C60_ghost_refuted.

(** What is drawn where the cursor is goes away with the cursor. *)
Theorem C60_drawn_under_refuted : exists u z g g' p, good_sizes u z /\ on z p /\
  new_con u (new_lcd (s_w z) (s_h z) [] [] (fun _ _ => [])) = Some g /\
  run_ops u [GPixel p; GHide] g = Some g' /\ canvas (c_lcd g') p <> encode u (c_fg g').
Proof.
  assert (W : forall o : option con,
            match o with
            | Some g => match run_ops setup1 [GPixel (1, 1); GHide] g with
                        | Some g1 => negb (ustr_eqb (canvas (c_lcd g1) (1, 1)) (encode setup1 (c_fg g1)))
                        | None => false
                        end
            | None => false
            end = true ->
            exists g g1, o = Some g /\ run_ops setup1 [GPixel (1, 1); GHide] g = Some g1 /\ canvas (c_lcd g1) (1, 1) <> encode setup1 (c_fg g1)).
  { intros [g|] H; [|discriminate]. destruct (run_ops setup1 [GPixel (1, 1); GHide] g) as [g1|] eqn:E1; [|discriminate]. exists g, g1.
    split; [reflexivity|]. split; [exact E1|]. apply ustr_eqb_neq, negb_true_iff, H. }
  destruct (W (new_con setup1 (new_lcd (s_w sizes5) (s_h sizes5) [] [] (fun _ _ => [])))) as (g & g1 & E0 & E1 & Ne); [vm_compute; reflexivity|].
  exists setup1, sizes5, g, g1, (1, 1). split; [exact sizes5_good|]. split; [unfold on; cbn; lia|].
  split; [exact E0|]. split; [exact E1|exact Ne].
Qed.
Print Assumptions C60_drawn_under_refuted.

(** Clearing the previous character in the first column panics if the cursor is visible. *)
Theorem C60_previous_char_refuted : forall u z g s, agrees u z g s ->
  v_on (fst (fst s)) = true -> v_x (fst (fst s)) = 0 -> clear_con u PreviousChar g = None.
Proof.
  intros u z g s G On X. unfold clear_con. rewrite (a_cursor _ _ _ _ G), X. cbn [fst]. change (0 <? 0) with false. cbn [bind].
  unfold draw_cursor. rewrite (a_visible _ _ _ _ G), On. cbn [negb]. pose proof (a_backup _ _ _ _ G) as B. rewrite On in B.
  destruct B as [-> _]. reflexivity.
Qed.
Print Assumptions C60_previous_char_refuted.

Example C60_previous_char_case : match start5 with Some g => clear_con setup1 PreviousChar g = None | None => False end.
Proof. vm_compute. reflexivity. Qed.

(** * C61: shapes *)

(** Exactly these pixels have the foreground color, and all others are as they were; the device shows it
    if it is synchronized and has not changed otherwise. *)
Definition only (u : setup) (z : sizes) (g g' : con) (pixels : point -> Prop) : Prop :=
  (forall p, on z p -> (pixels p /\ canvas (c_lcd g') p = encode u (c_fg g)) \/
                       (~ pixels p /\ canvas (c_lcd g') p = canvas (c_lcd g) p)) /\
  (forall p, on z p -> shown (c_lcd g') p = if c_sync g then canvas (c_lcd g') p else shown (c_lcd g) p) /\
  c_cursor g' = c_cursor g /\ c_sync g' = c_sync g.

Definition ready (u : setup) (z : sizes) (g : con) : Prop := good_sizes u z /\ exists s, agrees u z g s.

Lemma only_list u z g l : ready u z g -> exists g', draw_shape u l g = Some g' /\ only u z g g' (fun p => In p l).
Proof.
  intros [Gs [[[v seen] sync] G]].
  destruct (run_op_spec u z g (v, seen, sync) (GShape l) Gs G) as (g' & E & G').
  { split; [exact (a_fits _ _ _ _ G)|exact I]. }
  cbn [run_op] in E. destruct (draw_shape u l g) as [g1|]; [|discriminate]. cbn [always bind] in E. assert (g1 = g') as -> by congruence.
  exists g'. split; [reflexivity|]. unfold effect_of in G'. cbn [effect_on] in G'.
  assert (Sy : c_sync g = sync) by apply (a_sync _ _ _ _ G).
  split; [|split; [|split]].
  - intros p X. rewrite (a_canvas _ _ _ _ G' p X). cbn [fst snd draw_on v_screen]. unfold paint.
    destruct (in_list l p) eqn:Il.
    + left. split; [apply in_list_spec, Il|]. symmetry. apply (a_fg _ _ _ _ G).
    + right. split; [|symmetry; apply (a_canvas _ _ _ _ G p X)]. intros H. apply in_list_spec in H. congruence.
  - intros p X. rewrite Sy, (a_seen _ _ _ _ G' p X), (a_canvas _ _ _ _ G' p X). cbn [fst snd]. destruct sync; [reflexivity|].
    symmetry. apply (a_seen _ _ _ _ G p X).
  - rewrite (a_cursor _ _ _ _ G'), (a_cursor _ _ _ _ G). reflexivity.
  - rewrite Sy. apply (a_sync _ _ _ _ G').
Qed.

Lemma only_iff u z g g' (A B : point -> Prop) : (forall p, A p <-> B p) -> only u z g g' A -> only u z g g' B.
Proof.
  intros E (H & R). split; [|exact R]. intros p X. destruct (H p X) as [[H1 H2]|[H1 H2]]; [left|right]; split; auto.
  - apply E, H1.
  - intros Y. apply H1, E, Y.
Qed.

Lemma only_nothing u z g : ready u z g -> only u z g g (fun _ => False).
Proof.
  intros [Gs [[[v seen] sync] G]]. split; [|split; [|split; reflexivity]].
  - intros p X. right. split; [intros []|reflexivity].
  - intros p X. destruct (c_sync g) eqn:Sy; [|reflexivity]. apply (a_live _ _ _ _ G).
    + rewrite (proj2 (a_sync _ _ _ _ G)), <- (proj1 (a_sync _ _ _ _ G)). exact Sy.
    + apply (on_lcd_display z); [apply (a_w _ _ _ _ G)|apply (a_h _ _ _ _ G)|exact X].
Qed.

Lemma only_pixel u z g q : ready u z g -> exists g', gdraw_pixel u q g = Some g' /\ only u z g g' (fun p => p = q).
Proof.
  intros [Gs [[[v seen] sync] G]].
  destruct (run_op_spec u z g (v, seen, sync) (GPixel q) Gs G) as (g' & E & G').
  { split; [exact (a_fits _ _ _ _ G)|exact I]. }
  cbn [run_op] in E. destruct (gdraw_pixel u q g) as [g1|]; [|discriminate]. cbn [always bind] in E. assert (g1 = g') as -> by congruence.
  exists g'. split; [reflexivity|]. unfold effect_of in G'. cbn [effect_on] in G'.
  assert (Sy : c_sync g = sync) by apply (a_sync _ _ _ _ G).
  split; [|split; [|split]].
  - intros p X. rewrite (a_canvas _ _ _ _ G' p X). cbn [fst snd draw_on v_screen]. unfold paint.
    destruct (point_eqb p q) eqn:Il.
    + left. split; [apply point_eqb_eq, Il|]. symmetry. apply (a_fg _ _ _ _ G).
    + right. split; [|symmetry; apply (a_canvas _ _ _ _ G p X)]. intros H. apply point_eqb_eq in H. congruence.
  - intros p X. rewrite Sy, (a_seen _ _ _ _ G' p X), (a_canvas _ _ _ _ G' p X). cbn [fst snd]. destruct sync; [reflexivity|].
    symmetry. apply (a_seen _ _ _ _ G p X).
  - rewrite (a_cursor _ _ _ _ G'), (a_cursor _ _ _ _ G). reflexivity.
  - rewrite Sy. apply (a_sync _ _ _ _ G').
Qed.

(** Pixels and lines. *)
Theorem C61_lines : forall u z g p q, ready u z g ->
  (exists g', gdraw_pixel u p g = Some g' /\ only u z g g' (fun r => r = p)) /\
  (exists g', gdraw_line u p q g = Some g' /\ only u z g g' (fun r => In r (draw_line p q))).
Proof. intros u z g p q R. split; [apply only_pixel, R|apply only_list, R]. Qed.
Print Assumptions C61_lines.

(** Circles, with the pixels of C56. *)
Theorem C61_circles : forall u z g c r, ready u z g -> 2 <= r <= 16383 -> circle_fits c r ->
  (exists g', gdraw_circle u false c r g = Some (Ok g') /\ only u z g g' (fun p => on_circle r (fst p - fst c) (snd p - snd c))) /\
  (exists g', gdraw_circle u true c r g = Some (Ok g') /\ only u z g g' (fun p => in_disc r (fst p - fst c) (snd p - snd c))).
Proof.
  intros u z g c r R Rr F. unfold gdraw_circle.
  destruct (draw_circle_in c r (proj1 Rr) (proj2 Rr) F) as (l & El & Il).
  destruct (draw_circle_filled_in c r (proj1 Rr) (proj2 Rr) F) as (l' & El' & Il'). rewrite El, El'.
  destruct (only_list u z g l R) as (g1 & E1 & O1). destruct (only_list u z g l' R) as (g2 & E2 & O2). rewrite E1, E2. cbn [bind].
  split; [exists g1|exists g2]; (split; [reflexivity|]); [apply (only_iff _ _ _ _ _ _ Il O1)|apply (only_iff _ _ _ _ _ _ Il' O2)].
Qed.
Print Assumptions C61_circles.

(** Rectangles of two corners: what C57 says of them, and a line if they are in one row or column. *)
Theorem C61_rectangles : forall u z g p q, ready u z g -> pixel p -> pixel q ->
  Z.min (fst p) (fst q) < s_w z -> Z.min (snd p) (snd q) < s_h z ->
  let a := (Z.min (fst p) (fst q), Z.min (snd p) (snd q)) in
  let b := (Z.max (fst p) (fst q) - 1, Z.max (snd p) (snd q) - 1) in
  let flat := fst p = fst q \/ snd p = snd q in
  (exists g', gdraw_rect u false p q g = Some g' /\
     only u z g g' (fun r => (flat /\ In r (draw_line p q)) \/ (~ flat /\ on_border a b r))) /\
  (exists g', gdraw_rect u true p q g = Some g' /\
     only u z g g' (fun r => (flat /\ In r (draw_line p q)) \/ (~ flat /\ in_box a b r))).
Proof.
  intros u z g p q R Pp Pq Mx My a b flat. unfold gdraw_rect. destruct p as [x1 y1], q as [x2 y2].
  unfold flat, a, b in *. clear flat a b. destruct Pp as [Px1 Py1], Pq as [Px2 Py2]. cbn [fst snd] in *.
  rewrite rect_points_spec by assumption.
  assert (Line : forall (A : point -> Prop), (forall r, In r (draw_line (x1, y1) (x2, y2)) <-> A r) ->
            exists g', bind (on_lcd (draw_all (draw_line (x1, y1) (x2, y2))) (ink u (c_fg g) g)) present = Some g' /\ only u z g g' A).
  { intros A H. destruct (only_list u z g (draw_line (x1, y1) (x2, y2)) R) as (g' & E & O). exists g'. split; [exact E|]. apply (only_iff _ _ _ _ _ _ H O). }
  destruct (x1 =? x2) eqn:Ex; [apply Z.eqb_eq in Ex|apply Z.eqb_neq in Ex].
  { split; apply Line; intros r; intuition. }
  destruct (y1 =? y2) eqn:Ey; [apply Z.eqb_eq in Ey|apply Z.eqb_neq in Ey].
  { split; apply Line; intros r; intuition. }
  unfold is16 in *. split.
  - destruct (only_list u z g (draw_rect (Z.min x1 x2, Z.min y1 y2) (Z.abs (x2 - x1)) (Z.abs (y2 - y1))) R) as (g' & E & O).
    exists g'. split; [exact E|]. refine (only_iff _ _ _ _ _ _ _ O). intros r. rewrite draw_rect_in by (unfold is16; lia).
    replace (Z.min x1 x2 + Z.abs (x2 - x1) - 1) with (Z.max x1 x2 - 1) by lia.
    replace (Z.min y1 y2 + Z.abs (y2 - y1) - 1) with (Z.max y1 y2 - 1) by lia. intuition.
  - destruct R as [Gs [[[v seen] sync] G]].
    assert (W : l_width (c_lcd g) = s_w z) by apply (a_w _ _ _ _ G). assert (H : l_height (c_lcd g) = s_h z) by apply (a_h _ _ _ _ G).
    destruct (draw_rect_filled_becomes (set_draw_color (encode u (c_fg g)) (c_lcd g)) (Z.min x1 x2, Z.min y1 y2) (Z.abs (x2 - x1)) (Z.abs (y2 - y1)))
      as (d' & E & B).
    + apply sound_color, G.
    + apply live_color, G.
    + lia.
    + lia.
    + left. cbn [fst]. change (Z.min x1 x2 < l_width (c_lcd g)). lia.
    + left. cbn [snd]. change (Z.min y1 y2 < l_height (c_lcd g)). lia.
    + match goal with
      |- exists g0, bind ?X present = Some g0 /\ _ =>
        assert (EX : X = Some (with_lcd (ink u (c_fg g) g) d'))
          by (unfold on_lcd; exact (f_equal (fun r => bind r (fun d => Some (with_lcd (ink u (c_fg g) g) d))) E))
      end. rewrite EX. cbn [bind].
      pose proof (shape_agrees u z g v seen sync d' _ Gs G B) as G1.
      destruct (present_agrees u z _ _ _ _ G1) as (g2 & E2 & G2). exists g2. split; [exact E2|].
      assert (Sy : c_sync g = sync) by apply (a_sync _ _ _ _ G).
      split; [|split; [|split]].
      * intros p X. rewrite (a_canvas _ _ _ _ G2 p X). cbn [fst snd draw_on v_screen]. unfold paint.
        destruct (in_area (box (Z.min x1 x2, Z.min y1 y2) (Z.abs (x2 - x1)) (Z.abs (y2 - y1))) p) eqn:Ia.
        -- left. apply in_area_spec in Ia. unfold box in Ia. cbn [fst snd] in Ia. split; [|symmetry; apply (a_fg _ _ _ _ G)].
           right. split; [lia|]. unfold in_box, between. cbn [fst snd]. lia.
        -- right. split; [|symmetry; apply (a_canvas _ _ _ _ G p X)]. intros [[[F|F] _]|[_ F]]; [lia|lia|].
           unfold in_box, between in F. cbn [fst snd] in F. unfold in_area, box in Ia. cbn [fst snd] in Ia. lia.
      * intros p X. rewrite Sy, (a_seen _ _ _ _ G2 p X), (a_canvas _ _ _ _ G2 p X). cbn [fst snd]. destruct sync; [reflexivity|].
        symmetry. apply (a_seen _ _ _ _ G p X).
      * rewrite (a_cursor _ _ _ _ G2), (a_cursor _ _ _ _ G). reflexivity.
      * rewrite Sy. apply (a_sync _ _ _ _ G2).
Qed.
Print Assumptions C61_rectangles.

(** Polygons of any number of points.  Three points in one line draw nothing, nor more than three
    points that are all the same. *)
Theorem C61_polygons : forall u z g points, ready u z g -> Forall Draw_Spec.small points ->
  (points = [] -> gdraw_poly u false points g = Some g /\ gdraw_poly u true points g = Some g) /\
  (forall p, points = [p] -> exists g', gdraw_poly u false points g = Some g' /\ gdraw_poly u true points g = Some g' /\ only u z g g' (fun r => r = p)) /\
  (forall p q, points = [p; q] -> exists g', gdraw_poly u false points g = Some g' /\ gdraw_poly u true points g = Some g' /\
     only u z g g' (fun r => In r (draw_line p q))) /\
  ((3 <= List.length points)%nat ->
     let degenerate := match points with
                       | [a; b; c] => collinear a b c
                       | _ => forall p q, In p points -> In q points -> p = q
                       end in
     let outline := fun r => exists a b, In (a, b) (edges points) /\ In r (draw_line a b) in
     (degenerate -> gdraw_poly u false points g = Some g /\ gdraw_poly u true points g = Some g) /\
     (~ degenerate -> exists g1 g2, gdraw_poly u false points g = Some g1 /\ gdraw_poly u true points g = Some g2 /\
        only u z g g1 outline /\ only u z g g2 (fun r => inside points r \/ outline r))).
Proof.
  intros u z g points R Sm.
  assert (Pt : forall p q : point, p = q \/ p <> q).
  { intros [a b] [c d]. destruct (Z.eq_dec a c), (Z.eq_dec b d); [left|right|right|right]; congruence. }
  split; [intros ->; split; reflexivity|]. split.
  { intros p ->. destruct (only_pixel u z g p R) as (g' & E & O). exists g'. auto. }
  split.
  { intros p q ->. destruct (only_list u z g (draw_line p q) R) as (g' & E & O). exists g'. auto. }
  intros L degenerate outline.
  assert (Two : (2 <= List.length points)%nat) by lia.
  assert (Poly : forall r, In r (draw_poly points) <-> outline r) by (intros r; apply draw_poly_in, Two).
  assert (Fill : forall r, In r (draw_poly_filled points) <-> inside points r \/ outline r).
  { intros r. unfold draw_poly_filled. rewrite in_app_iff, fill_polygon_in by assumption. rewrite Poly. reflexivity. }
  assert (Go : forall l1 l2, (forall r, In r l1 <-> outline r) -> (forall r, In r l2 <-> inside points r \/ outline r) ->
     exists g1 g2, draw_shape u l1 g = Some g1 /\ draw_shape u l2 g = Some g2 /\ only u z g g1 outline /\ only u z g g2 (fun r => inside points r \/ outline r)).
  { intros l1 l2 H1 H2. destruct (only_list u z g l1 R) as (g1 & E1 & O1). destruct (only_list u z g l2 R) as (g2 & E2 & O2).
    exists g1, g2. split; [exact E1|]. split; [exact E2|]. split; [apply (only_iff _ _ _ _ _ _ H1 O1)|apply (only_iff _ _ _ _ _ _ H2 O2)]. }
  destruct points as [|a [|b [|c rest]]]; try (cbn [List.length] in L; lia). destruct rest as [|d rest].
  - cbn [gdraw_poly]. unfold gdraw_tri. pose proof (tri_points_spec a b c) as T. unfold degenerate. split.
    + intros D. destruct (tri_points a b c); [|split; reflexivity]. destruct (proj1 T eq_refl D).
    + intros D. destruct (tri_points a b c) eqn:Et; [|assert (false = true) by (apply T, D); discriminate]. apply Go; intros r.
      * assert (X : draw_tri a b c = draw_poly [a; b; c]) by (unfold draw_tri, draw_poly; cbn [draw_path last]; rewrite app_nil_r, <- !app_assoc; reflexivity).
        rewrite X. apply Poly.
      * rewrite <- Fill. unfold draw_tri_filled, draw_poly_filled.
        assert (X : draw_tri a b c = draw_poly [a; b; c]) by (unfold draw_tri, draw_poly; cbn [draw_path last]; rewrite app_nil_r, <- !app_assoc; reflexivity).
        rewrite X. reflexivity.
  - cbn [gdraw_poly]. pose proof (poly_points_spec (a :: b :: c :: d :: rest)) as T. unfold degenerate. split.
    + intros D. destruct (poly_points (a :: b :: c :: d :: rest)); [|split; reflexivity].
      destruct (proj1 T eq_refl) as (p & q & Ip & Iq & Ne). destruct (Ne (D p q Ip Iq)).
    + intros D. destruct (poly_points (a :: b :: c :: d :: rest)) eqn:Et; [apply Go; assumption|].
      exfalso. apply D. intros p q Ip Iq. destruct (Pt p q) as [E|Ne]; [exact E|].
      assert (false = true) by (apply T; exists p, q; auto). discriminate.
Qed.
Print Assumptions C61_polygons.

Example C61_case :
  match bind start5 (run_ops setup1 [GHide]) with
  | Some g =>
    match gdraw_poly setup1 true [(0, 0); (3, 0); (3, 3); (0, 3)] g, gdraw_rect setup1 false (0, 0) (4, 3) g with
    | Some g1, Some g2 =>
      bits g1 = [1; 1; 1; 1; 0;  1; 1; 1; 1; 0;  1; 1; 1; 1; 0;  1; 1; 1; 1; 0]%N /\
      bits g2 = [1; 1; 1; 1; 0;  1; 0; 0; 1; 0;  1; 1; 1; 1; 0;  0; 0; 0; 0; 0]%N
    | _, _ => False
    end
  | None => False
  end.
Proof. vm_compute. split; reflexivity. Qed.

Example C61_ready : exists g, new_con setup1 (new_lcd (s_w sizes5) (s_h sizes5) [] [] (fun _ _ => [])) = Some g /\ ready setup1 sizes5 g.
Proof.
  destruct (new_con_spec setup1 sizes5 [] [] (fun _ _ => []) sizes5_good) as (g & E & G). exists g.
  split; [exact E|]. split; [exact sizes5_good|]. eexists. exact G.
Qed.

(** Filling a region: C44 with the color of the console, shown as anything else. *)
Theorem C61_fill : forall u z g p seed, ready u z g -> on z p ->
  ansi_of (encode u) (canvas (c_lcd g) p) = Some seed ->
  seed <> match c_ansi_fg g with Some c => c | None => def_fg u end ->
  encode u (c_fg g) <> canvas (c_lcd g) p ->
  exists n g', (forall m, (n <= m)%nat -> gbucket_fill u p m g = Some (Some g')) /\
    only u z g g' (region (c_lcd g) p).
Proof.
  intros u z g p seed [Gs [[[v seen] sync] G]] On Se Ne Ink.
  assert (W : l_width (c_lcd g) = s_w z) by apply (a_w _ _ _ _ G). assert (H : l_height (c_lcd g) = s_h z) by apply (a_h _ _ _ _ G).
  set (d0 := set_draw_color (encode u (c_fg g)) (c_lcd g)).
  destruct (bucket_fill_region (encode u) d0 p (match c_ansi_fg g with Some c => c | None => def_fg u end) seed) as (n & d' & E & B & Rg).
  - apply sound_color, G.
  - apply live_color, G.
  - apply (on_lcd_display z); assumption.
  - exact Se.
  - exact Ne.
  - exact Ink.
  - assert (Rd : forall q, region d0 p q <-> region (c_lcd g) p q).
    { intros q. split; induction 1; [apply region_start|eapply region_step|apply region_start|eapply region_step]; eassumption. }
    assert (Dp : forall q, on z q <-> on_display d0 q) by (intros q; apply on_lcd_display; assumption).
    assert (Sy : c_sync g = sync) by apply (a_sync _ _ _ _ G). assert (Ls : l_sync (c_lcd g) = sync) by apply (a_sync _ _ _ _ G).
    assert (Pr : present (with_lcd g d') = Some (with_lcd g d')).
    { unfold present. cbn [with_lcd c_sync]. rewrite Sy. destruct sync; [|reflexivity]. unfold on_lcd. cbn [c_lcd]. unfold present_canvas.
      change (c_lcd (with_lcd g d')) with d'. rewrite (b_sync _ _ _ B). change (l_sync d0) with (l_sync (c_lcd g)). rewrite Ls. reflexivity. }
    exists n, (with_lcd g d'). split.
    + intros m M. unfold gbucket_fill. fold d0. rewrite (E m M). cbn [bind]. rewrite Pr. reflexivity.
    + split; [|split; [|split; reflexivity]].
      * intros q X. destruct (Rg q (proj1 (Dp q) X)) as [[R1 R2]|[R1 R2]]; [left|right]; (split; [|exact R2]); rewrite <- Rd; exact R1.
      * intros q X. cbn [with_lcd c_lcd]. rewrite (b_shown _ _ _ B) by (apply Dp, X). change (l_sync d0) with (l_sync (c_lcd g)). rewrite Ls, Sy.
        destruct sync; reflexivity.
Qed.
Print Assumptions C61_fill.

Example C61_fill_case :
  match bind start5 (run_ops setup1 [GHide; GShape [(2, 0); (2, 1); (1, 2); (0, 2)]]) with
  | Some g => match gbucket_fill setup1 (0, 0) 100 g with
              | Some (Some g') => bits g' = [1; 1; 1; 0; 0;  1; 1; 1; 0; 0;  1; 1; 0; 0; 0;  0; 0; 0; 0; 0]%N
              | _ => False
              end
  | None => False
  end.
Proof. vm_compute. reflexivity. Qed.

(** Reading a pixel: the number of its color, and nothing outside of the display. *)
Theorem C61_peek : forall u z g p, ready u z g ->
  (on z p -> gpeek_pixel u p g = Some (ansi_of (encode u) (canvas (c_lcd g) p))) /\
  (~ on z p -> gpeek_pixel u p g = Some None).
Proof.
  intros u z g p [Gs [s G]]. unfold gpeek_pixel.
  assert (D : on z p <-> on_display (c_lcd g) p) by (apply on_lcd_display; apply G).
  split; intros H; [apply peek_on|apply peek_off]; try apply G; rewrite <- D; exact H.
Qed.
Print Assumptions C61_peek.

Example C61_peek_case :
  match bind start5 (run_ops setup1 [GHide; GColor (Some 9%N) None; GPixel (2, 1)]) with
  | Some g => gpeek_pixel setup1 (2, 1) g = Some (Some 9%N) /\ gpeek_pixel setup1 (5, 1) g = Some None
  | None => False
  end.
Proof. vm_compute. split; reflexivity. Qed.

(** Circles of radius zero are nothing, of radius one a pixel, and too large ones an error. *)
Theorem C61_small_circles : forall u z g filled c r, ready u z g ->
  (exists g', gdraw_circle u filled c 0 g = Some (Ok g') /\ only u z g g' (fun _ => False)) /\
  (exists g', gdraw_circle u filled c 1 g = Some (Ok g') /\ only u z g g' (fun p => p = c)) /\
  (16383 < r -> gdraw_circle u filled c r g = Some (Err tt)).
Proof.
  intros u z g filled c r R. split; [|split].
  - destruct (only_list u z g [] R) as (g' & E & O). exists g'. split; [|apply (only_iff _ _ _ _ _ _ (fun p => iff_refl _) O)].
    unfold gdraw_circle. destruct filled; cbn [draw_circle draw_circle_filled Z.eqb Pos.eqb]; rewrite E; reflexivity.
  - destruct (only_list u z g [c] R) as (g' & E & O). exists g'. split.
    + unfold gdraw_circle. destruct filled; cbn [draw_circle draw_circle_filled Z.eqb Pos.eqb]; rewrite E; reflexivity.
    + refine (only_iff _ _ _ _ _ _ _ O). intros p. cbn [In]. intuition.
  - intros H. unfold gdraw_circle, draw_circle, draw_circle_filled, circle_steps.
    destruct (r =? 0) eqn:E0; [apply Z.eqb_eq in E0; lia|]. destruct (r =? 1) eqn:E1; [apply Z.eqb_eq in E1; lia|].
    destruct (32767 <? 2 * r) eqn:E; [destruct filled; reflexivity|apply Z.ltb_ge in E; lia].
Qed.
Print Assumptions C61_small_circles.
