(** Theorems about LCDs behind a frame buffer: bucket fill (C44), what the device shows (C45) and
    drawing out of the display (C46). *)
From Verif Require Import Base Colors_Model Draw_Model Draw_Spec Lcd_Model Lcd_Spec Lcd_Proofs.
Local Open Scope Z_scope.
Local Open Scope list_scope.

(** ** A small display for the examples: 3 by 2 pixels of red, green and blue bytes *)

Definition rgb888 (c : rgb) : px := let '(r, g, b) := c in [r; g; b].
Definition small (fb : list px) : lcd :=
  mkLcd 3 2 fb (fun x y => nth (Z.to_nat (y * 3 + x)) fb []) true None [255; 255; 255]%N.

Lemma small_sound fb : length fb = 6%nat -> sound (small fb) /\ live (small fb).
Proof.
  intros L. split; [|intros _ p _; reflexivity]. constructor; try (cbn; lia); try discriminate.
  - intros p _ _. reflexivity.
Qed.

Definition k : px := [0; 0; 0]%N.
Definition wh : px := [255; 255; 255]%N.
Definition red : px := [255; 0; 0]%N.

(** * C44: bucket fill *)

(** Filling from a pixel of a color other than the one to fill with ends, and then the pixels that can
    be reached from it through pixels of its color have the new color and no other pixel has changed.
    The steps are not bounded: [n] is any number that is large enough. *)
Theorem C44_region : forall encode d p color seed,
  sound d -> live d -> on_display d p ->
  ansi_of encode (canvas d p) = Some seed -> seed <> color -> l_color d <> canvas d p ->
  exists n d', (forall m, (n <= m)%nat -> bucket_fill encode p color m d = Some (Some d')) /\
    becomes (canvas d') d d' /\
    forall q, on_display d q ->
      (region d p q /\ canvas d' q = l_color d) \/ (~ region d p q /\ canvas d' q = canvas d q).
Proof. exact bucket_fill_region. Qed.
Print Assumptions C44_region.

(** White is poured in the corner of a wall: the far pixel stays black. *)
Example C44_case :
  exists d', bucket_fill rgb888 (0, 0) 15 40 (small [k; k; red; k; red; k]) = Some (Some d') /\
    l_fb d' = [wh; wh; red; wh; red; k].
Proof. eexists. split; [vm_compute; reflexivity|reflexivity]. Qed.

Example C44_hypotheses :
  let d := small [k; k; red; k; red; k] in
  sound d /\ live d /\ on_display d (0, 0) /\ ansi_of rgb888 (canvas d (0, 0)) = Some 0%N /\ l_color d <> canvas d (0, 0).
Proof.
  destruct (small_sound [k; k; red; k; red; k] eq_refl). cbv zeta.
  split; [assumption|]. split; [assumption|]. split; [repeat split; cbn; lia|]. split; [exact eq_refl|]. discriminate.
Qed.

(** Nothing happens out of the display, on a pixel of a color out of the palette, or on a pixel that
    already has the color. *)
Theorem C44_nothing : forall encode d p color n, sound d ->
  ~ on_display d p \/ (on_display d p /\ (ansi_of encode (canvas d p) = None \/ ansi_of encode (canvas d p) = Some color)) ->
  bucket_fill encode p color n d = Some (Some d).
Proof.
  intros encode d p color n So [Off|[On [E|E]]]; unfold bucket_fill.
  - rewrite peek_off by assumption. reflexivity.
  - rewrite peek_on, E by assumption. reflexivity.
  - rewrite peek_on, E by assumption. cbn [bind]. rewrite N.eqb_refl. reflexivity.
Qed.
Print Assumptions C44_nothing.

Example C44_nothing_case : bucket_fill rgb888 (3, 0) 15 1 (small [k; k; k; k; k; k]) = Some (Some (small [k; k; k; k; k; k])).
Proof. vm_compute. reflexivity. Qed.

(** The palette has colors that look the same, such as 0 and 16.  Filling a black region with color 16
    does not end: the pixels keep looking as if they had not been filled. *)
Theorem C44_same_look_refuted : exists encode d p color seed,
  sound d /\ live d /\ on_display d p /\ ansi_of encode (canvas d p) = Some seed /\ seed <> color /\
  (exists c, ansi_color_to_rgb color = Some c /\ l_color d = encode c) /\
  forall n, bucket_fill encode p color n d = Some None.
Proof.
  set (d := set_draw_color (rgb888 (0, 0, 0)%N) (small [k; k; k; k; k; k])).
  destruct (small_sound [k; k; k; k; k; k] eq_refl) as [So L].
  exists rgb888, d, (0, 0), 16%N, 0%N.
  assert (So' : sound d) by (destruct So; constructor; assumption).
  assert (A : ansi_of rgb888 k = Some 0%N) by (exact eq_refl).
  split; [exact So'|]. split; [exact L|]. split; [repeat split; cbn; lia|]. split; [exact A|].
  split; [discriminate|]. split; [exists (0, 0, 0)%N; split; reflexivity|].
  intros n. unfold bucket_fill. rewrite peek_on by (assumption || (repeat split; cbn; lia)).
  change (canvas d (0, 0)) with k. rewrite A. cbn [bind].
  change ((0 =? 16)%N) with false. cbv iota.
  apply (fill_hangs rgb888 d (0, 0) (1, 0) 0%N); try assumption; try reflexivity; try (repeat split; cbn; lia).
  left. left. reflexivity.
Qed.
Print Assumptions C44_same_look_refuted.

(** * C45: the device shows what was drawn *)

(** Whatever the device shows when it is turned on, once it has been cleared the display is as one
    without buffers. *)
Theorem C45_start : forall w h zero white dev c, 0 < w <= 32768 -> 0 < h <= 32768 ->
  exists d, clear (set_draw_color c (new_lcd w h zero white dev)) = Some d /\ sound d /\ live d /\
    l_width d = w /\ l_height d = h /\ looks_like d (mkScreen (fun _ => c) (fun _ => c) true c).
Proof. exact start_spec. Qed.
Print Assumptions C45_start.

(** ... and it stays so for any sequence of operations: no one panics, the frame buffer has what was
    drawn, and the device shows it if synchronization was on for the last drawing or it was presented
    since; otherwise it shows what it had. *)
Theorem C45_histories : forall ops d s,
  sound d -> live d -> looks_like d s -> Forall (allowed (l_width d) (l_height d)) ops ->
  exists d', do_all perform ops d = Some d' /\ sound d' /\ live d' /\
    looks_like d' (fold_left (fun s o => effect o s) ops s) /\
    l_width d' = l_width d /\ l_height d' = l_height d.
Proof. exact perform_all_spec. Qed.
Print Assumptions C45_histories.

(** Both in one: from a device in any state. *)
Theorem C45_from_start : forall w h zero white dev c ops, 0 < w <= 32768 -> 0 < h <= 32768 ->
  Forall (allowed w h) ops ->
  exists d', bind (clear (set_draw_color c (new_lcd w h zero white dev))) (do_all perform ops) = Some d' /\
    let s := fold_left (fun s o => effect o s) ops (mkScreen (fun _ => c) (fun _ => c) true c) in
    forall x y, 0 <= x < w -> 0 <= y < h -> canvas d' (x, y) = drawn s (x, y) /\ shown d' (x, y) = seen s (x, y).
Proof.
  intros w h zero white dev c ops W H Al. destruct (start_spec w h zero white dev c W H) as (d & -> & So & L & Ew & Eh & Lk).
  cbn [bind]. rewrite <- Ew, <- Eh in Al. destruct (perform_all_spec ops d _ So L Lk Al) as (d' & E & _ & _ & Lk' & W' & H').
  exists d'. split; [exact E|]. cbv zeta. intros x y X Y. apply Lk'. unfold on_display. rewrite W', H', Ew, Eh. cbn [fst snd]. auto.
Qed.
Print Assumptions C45_from_start.

Definition history : list op :=
  [OColor red; OPixel (1, 1); OSync false; OColor wh; OShape [(0, 0); (7, 7)]; OPresent; ORect (-1, 1) 2 2;
   OMove (0, 0) (1, 0) 2 1].

Example C45_allowed : Forall (allowed 3 2) history.
Proof. unfold history, allowed, box_inside. repeat (constructor; [cbn [fst snd]; try exact eq_refl; try lia|]). constructor. Qed.

Example C45_case :
  match bind (clear (set_draw_color k (new_lcd 3 2 [] wh (fun _ _ => red)))) (do_all perform history) with
  | Some d => l_fb d = [wh; wh; k; wh; red; k] /\
      map (shown d) [(0, 0); (1, 0); (2, 0); (0, 1); (1, 1); (2, 1)] = [wh; k; k; k; red; k]
  | None => False
  end.
Proof. vm_compute. split; reflexivity. Qed.

(** Turning synchronization on in the LCD itself shows nothing: only the console presents what was drawn
    before (and it does it first). *)
Theorem C45_sync_on_refuted : exists d p,
  sound d /\ live d /\ on_display d p /\
  exists d', bind (draw_pixel p (set_sync false d)) (fun d => Some (set_sync true d)) = Some d' /\
    l_sync d' = true /\ canvas d' p <> shown d' p.
Proof.
  exists (small [k; k; k; k; k; k]), (1, 1). destruct (small_sound [k; k; k; k; k; k] eq_refl) as [So L].
  split; [exact So|]. split; [exact L|]. split; [repeat split; cbn; lia|].
  eexists. split; [vm_compute; reflexivity|]. split; [reflexivity|]. vm_compute. discriminate.
Qed.
Print Assumptions C45_sync_on_refuted.

(** * C46: out of the display *)

Definition same_display (d d' : lcd) : Prop :=
  l_width d' = l_width d /\ l_height d' = l_height d /\ l_sync d' = l_sync d /\ l_color d' = l_color d /\
  forall p, on_display d p -> canvas d' p = canvas d p /\ shown d' p = shown d p.

Lemma becomes_same d d' P : becomes P d d' -> live d -> (forall p, on_display d p -> P p = canvas d p) -> same_display d d'.
Proof.
  intros B L E. split; [apply (b_width _ _ _ B)|]. split; [apply (b_height _ _ _ B)|]. split; [apply (b_sync _ _ _ B)|].
  split; [apply (b_color _ _ _ B)|]. intros p X. rewrite (b_canvas _ _ _ B), (b_shown _ _ _ B), E by exact X. split; [reflexivity|].
  destruct (l_sync d) eqn:Sy; [|reflexivity]. symmetry. apply L; assumption.
Qed.

(** No pixel of a shape that is out of the display is seen, or drawn. *)
Theorem C46_pixels : forall l d, sound d -> live d -> (forall p, In p l -> ~ on_display d p) ->
  exists d', draw_all l d = Some d' /\ same_display d d'.
Proof.
  intros l d So L Off. destruct (draw_all_becomes l d So L) as (d' & E & B). exists d'. split; [exact E|].
  apply (becomes_same _ _ _ B L). intros p X. unfold paint, in_list. destruct (existsb (point_eqb p) l) eqn:I; [|reflexivity].
  apply existsb_exists in I. destruct I as (q & Q & Eq). apply point_eqb_eq in Eq. subst q. destruct (Off p Q X).
Qed.
Print Assumptions C46_pixels.

Example C46_pixels_case : exists d', draw_all [(-1, 0); (3, 1); (0, 2)] (small [k; k; k; k; k; k]) = Some d' /\ l_fb d' = [k; k; k; k; k; k].
Proof. eexists. split; vm_compute; reflexivity. Qed.

(** A filled rectangle that ends before the left or the top of the display has no effect, and one that
    starts in the display or before it paints its pixels in the display and no others. *)
Theorem C46_rectangles : forall d p w h, sound d -> live d -> 1 <= w <= 65535 -> 1 <= h <= 65535 ->
  fst p + w <= 0 \/ snd p + h <= 0 ->
  exists d', draw_rect_filled p w h d = Some d' /\ same_display d d'.
Proof.
  intros d p w h So L W H Off. destruct (draw_rect_filled_becomes d p w h So L) as (d' & E & B); try lia.
  exists d'. split; [exact E|]. apply (becomes_same _ _ _ B L). intros q X. unfold paint.
  destruct (in_area (box p w h) q) eqn:A; [|reflexivity]. apply in_area_spec in A. unfold box, on_display in *. cbn [fst snd] in *. lia.
Qed.
Print Assumptions C46_rectangles.

Theorem C46_clipped : forall d p w h, sound d -> live d -> 1 <= w <= 65535 -> 1 <= h <= 65535 ->
  fst p < l_width d -> snd p < l_height d ->
  exists d', draw_rect_filled p w h d = Some d' /\
    forall q, on_display d q ->
      canvas d' q = if (fst p <=? fst q) && (fst q <? fst p + w) && (snd p <=? snd q) && (snd q <? snd p + h)
                    then l_color d else canvas d q.
Proof.
  intros d p w h So L W H Px Py. destruct (draw_rect_filled_becomes d p w h So L) as (d' & E & B); try lia.
  exists d'. split; [exact E|]. intros q X. rewrite (b_canvas _ _ _ B) by exact X. unfold paint, in_area, box. cbn [fst snd].
  replace (fst q <=? fst p + w - 1) with (fst q <? fst p + w) by lia.
  replace (snd q <=? snd p + h - 1) with (snd q <? snd p + h) by lia. reflexivity.
Qed.
Print Assumptions C46_clipped.

Example C46_clipped_case : exists d', draw_rect_filled (-5, 1) 6 9 (small [k; k; k; k; k; k]) = Some d' /\ l_fb d' = [k; k; k; wh; k; k].
Proof. eexists. split; vm_compute; reflexivity. Qed.

(** One that starts beyond the right of the display is drawn on its last column. *)
Theorem C46_beyond_refuted : exists d p w h d' q,
  sound d /\ live d /\ 1 <= w <= 65535 /\ 1 <= h <= 65535 /\
  (forall q, on_display d q -> in_area (box p w h) q = false) /\
  draw_rect_filled p w h d = Some d' /\ on_display d q /\ canvas d' q <> canvas d q /\ shown d' q <> shown d q.
Proof.
  destruct (small_sound [k; k; k; k; k; k] eq_refl) as [So L].
  exists (small [k; k; k; k; k; k]), (10, 0), 4, 1. eexists. exists (2, 0).
  split; [exact So|]. split; [exact L|]. split; [lia|]. split; [lia|]. split.
  { intros q X. unfold in_area, box, on_display in *. cbn [fst snd small l_width l_height] in *. lia. }
  split; [vm_compute; reflexivity|]. split; [repeat split; cbn; lia|]. split; vm_compute; discriminate.
Qed.
Print Assumptions C46_beyond_refuted.
