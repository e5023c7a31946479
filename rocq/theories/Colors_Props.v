(** C47: colours. *)
From Verif Require Import Base Colors_Model Colors_Spec.
Local Open Scope N_scope.

Lemma all_colors (P : N -> bool) : forallb (fun i => P (N.of_nat i)) (seq 0 256) = true ->
  forall c, c < 256 -> P c = true.
Proof.
  intros H c L. rewrite forallb_forall in H. specialize (H (N.to_nat c)).
  rewrite N2Nat.id in H. apply H. apply in_seq. lia.
Qed.

Lemma rgb_eqb_eq a b : rgb_eqb a b = true <-> a = b.
Proof.
  destruct a as [[r g] bl], b as [[r' g'] bl']. unfold rgb_eqb.
  rewrite !andb_true_iff, !N.eqb_eq. split; [intros [[-> ->] ->]; reflexivity|].
  intros H. injection H as -> -> ->. auto.
Qed.

(** Each of the 256 numbers gives its xterm colour. *)
Theorem C47_palette : forall c, c < 256 -> ansi_color_to_rgb c = Some (xterm c).
Proof.
  intros c L.
  assert (H : match ansi_color_to_rgb c with Some x => rgb_eqb x (xterm c) | None => false end = true).
  { apply (all_colors (fun c => match ansi_color_to_rgb c with Some x => rgb_eqb x (xterm c) | None => false end));
      [vm_compute; reflexivity|exact L]. }
  destruct (ansi_color_to_rgb c) as [x|]; [|discriminate]. apply rgb_eqb_eq in H. congruence.
Qed.
Print Assumptions C47_palette.

Lemma position_spec x l : match position x l with
  | Some i => nth_error l (N.to_nat i) = Some x /\ forall j, j < i -> nth_error l (N.to_nat j) <> Some x
  | None => ~ In x l
  end.
Proof.
  induction l as [|y l IH]; cbn [position]; [auto|].
  destruct (rgb_eqb y x) eqn:E.
  - apply rgb_eqb_eq in E as ->. split; [reflexivity|lia].
  - assert (Ny : y <> x) by (intros H; apply rgb_eqb_eq in H; congruence).
    destruct (position x l) as [i|].
    + destruct IH as [H F]. replace (N.to_nat (i + 1)) with (S (N.to_nat i)) by lia. split; [exact H|].
      intros j J. destruct (N.eq_dec j 0) as [->|Nj].
      * cbn. congruence.
      * replace (N.to_nat j) with (S (N.to_nat (j - 1))) by lia. cbn. apply F. lia.
    + intros [H|H]; auto.
Qed.

(** Looking a colour up gives the first number with that colour, exactly when there is one. *)
Theorem C47_reverse : forall x,
  match rgb_to_ansi_color x with
  | Some c => c < 256 /\ xterm c = x /\ forall d, d < c -> xterm d <> x
  | None => forall c, c < 256 -> xterm c <> x
  end.
Proof.
  intros x. unfold rgb_to_ansi_color. pose proof (position_spec x colors) as P.
  assert (T : forall c, c < 256 -> nth_error colors (N.to_nat c) = Some (xterm c)).
  { intros c L. rewrite <- (C47_palette c L). unfold ansi_color_to_rgb.
    change (N.of_nat (length colors)) with 256. rewrite N.mod_small by exact L. reflexivity. }
  destruct (position x colors) as [i|].
  - destruct P as [H F].
    assert (L : i < 256).
    { assert (N.to_nat i < length colors)%nat by (apply nth_error_Some; congruence).
      change (length colors) with 256%nat in H0. lia. }
    rewrite N.mod_small by exact L. split; [exact L|]. rewrite (T i L) in H. split; [congruence|].
    intros d D E. apply (F d D). rewrite (T d ltac:(lia)). congruence.
  - intros c L E. apply P. apply (nth_error_In _ (N.to_nat c)). rewrite (T c L). congruence.
Qed.
Print Assumptions C47_reverse.

(** Colour to number to colour is the identity on the palette. *)
Theorem C47_round_trip : forall c x, c < 256 -> ansi_color_to_rgb c = Some x ->
  exists d, rgb_to_ansi_color x = Some d /\ ansi_color_to_rgb d = Some x.
Proof.
  intros c x L H. rewrite (C47_palette c L) in H. injection H as <-.
  pose proof (C47_reverse (xterm c)) as R. destruct (rgb_to_ansi_color (xterm c)) as [d|].
  - destruct R as (Ld & E & _). exists d. split; [reflexivity|]. rewrite (C47_palette d Ld), E. reflexivity.
  - exfalso. apply (R c L). reflexivity.
Qed.
Print Assumptions C47_round_trip.

(** Numbers do not come back: 16 is black, which is number 0. *)
Theorem C47_number_round_trip_refuted : exists c x, c < 256 /\ ansi_color_to_rgb c = Some x /\
  rgb_to_ansi_color x <> Some c.
Proof. exists 16, (0, 0, 0). repeat split. vm_compute. discriminate. Qed.
Print Assumptions C47_number_round_trip_refuted.

Example C47_case : ansi_color_to_rgb 196 = Some (255, 0, 0) /\ rgb_to_ansi_color (255, 0, 0) = Some 9 /\
  rgb_to_ansi_color (1, 2, 3) = None.
Proof. repeat split. Qed.
