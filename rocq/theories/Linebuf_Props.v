(** C40: the line buffer edits characters. *)
From Coq Require Import String.
From Verif Require Import Base Text_Model Text_Proofs Linebuf_Model Linebuf_Spec.
Local Open Scope nat_scope.

Lemma is_text_chars b s : is_text b s -> chars b = s.
Proof. intros [T ->]. apply chars_collect. exact T. Qed.

Lemma is_text_collect s : text s -> is_text (collect s) s.
Proof. intros T. split; [exact T|reflexivity]. Qed.

Lemma firstn_min {A} (s : list A) p : firstn p s = firstn (min p (length s)) s.
Proof.
  destruct (Nat.le_ge_cases p (length s)); [f_equal; lia|].
  rewrite !firstn_all2 by lia. reflexivity.
Qed.

Lemma skipn_min {A} (s : list A) p : skipn p s = skipn (min p (length s)) s.
Proof.
  destruct (Nat.le_ge_cases p (length s)); [f_equal; lia|].
  rewrite !skipn_all2 by lia. reflexivity.
Qed.

(** Inserting, however far the position, changes nothing but adds the text there (at the end if
    the position is past it). *)
Theorem C40_insert : forall b s p t ts, is_text b s -> is_text t ts ->
  exists s', is_text (lb_insert_str b p t) s' /\ spliced s (min p (length s)) 0 ts s'.
Proof.
  intros b s p t ts B T. unfold lb_insert_str. rewrite (is_text_chars _ _ B), (is_text_chars _ _ T).
  exists (firstn p s ++ ts ++ skipn p s). split.
  - apply is_text_collect. apply text_app. split; [apply text_firstn, B|].
    apply text_app. split; [apply T|apply text_skipn, B].
  - exists (firstn p s), [], (skipn p s). cbn [app]. rewrite firstn_skipn, firstn_length. auto.
Qed.
Print Assumptions C40_insert.

Theorem C40_insert_char : forall b s p c, is_text b s -> is_char c = true ->
  exists s', is_text (lb_insert b p c) s' /\ spliced s (min p (length s)) 0 [c] s'.
Proof.
  intros b s p c B H. pose proof (C40_insert b s p (collect [c]) [c] B) as X.
  unfold lb_insert_str, lb_insert in *. rewrite chars_collect in X by (repeat constructor; exact H).
  apply X. apply is_text_collect. repeat constructor. exact H.
Qed.
Print Assumptions C40_insert_char.

(** Removing deletes exactly the character at the position, if there is one. *)
Theorem C40_remove : forall b s p, is_text b s ->
  exists s', is_text (lb_remove b p) s' /\
    spliced s (min p (length s)) (if p <? length s then 1 else 0) [] s'.
Proof.
  intros b s p B. unfold lb_remove. rewrite (is_text_chars _ _ B).
  exists (firstn p s ++ skipn (p + 1) s). split.
  - apply is_text_collect. apply text_app. split; [apply text_firstn, B|apply text_skipn, B].
  - exists (firstn p s), (firstn 1 (skipn p s)), (skipn (p + 1) s). cbn [app].
    assert (E : skipn (p + 1) s = skipn 1 (skipn p s)).
    { rewrite skipn_skipn. f_equal. lia. }
    rewrite E, firstn_skipn, firstn_skipn, !firstn_length, skipn_length.
    repeat split. destruct (Nat.ltb_spec p (length s)); lia.
Qed.
Print Assumptions C40_remove.

(** Splitting loses nothing: the two parts are the text before and after the position. *)
Theorem C40_split : forall b s p, is_text b s ->
  let (l, r) := lb_split_off b p in
  exists sl sr, is_text l sl /\ is_text r sr /\ s = sl ++ sr /\ length sl = min p (length s) /\
    lb_push_str l r = b.
Proof.
  intros b s p B. unfold lb_split_off, lb_push_str. rewrite (is_text_chars _ _ B).
  exists (firstn p s), (skipn p s).
  rewrite firstn_skipn, firstn_length, <- collect_app, firstn_skipn. destruct B as [T ->].
  repeat split; try apply text_firstn; try apply text_skipn; assumption.
Qed.
Print Assumptions C40_split.

(** Appending. *)
Theorem C40_push : forall b s t ts, is_text b s -> is_text t ts -> is_text (lb_push_str b t) (s ++ ts).
Proof.
  intros b s t ts [T ->] [T' ->]. unfold lb_push_str. rewrite <- collect_app.
  apply is_text_collect. apply text_app. auto.
Qed.
Print Assumptions C40_push.

(** Slices are the characters between two positions, clamped to the text; empty when the
    positions are in the wrong order. *)
Theorem C40_slices : forall b s i j, is_text b s ->
  let m x := min x (length s) in
  (exists r, is_text (lb_range b i j) r /\ part s (m i) (m j - m i) r) /\
  (exists r, is_text (lb_end b i) r /\ part s (m i) (length s - m i) r) /\
  (exists r, is_text (lb_start b j) r /\ part s 0 (m j) r).
Proof.
  intros b s i j B m. unfold lb_range, lb_end, lb_start. rewrite (is_text_chars _ _ B).
  destruct B as [T _]. repeat split.
  - exists (firstn (j - i) (skipn i s)). split.
    + apply is_text_collect, text_firstn, text_skipn, T.
    + exists (firstn i s), (skipn (j - i) (skipn i s)).
      rewrite !firstn_skipn, !firstn_length, skipn_length. unfold m. repeat split; lia.
  - exists (skipn i s). split.
    + apply is_text_collect, text_skipn, T.
    + exists (firstn i s), []. rewrite app_nil_r, firstn_skipn, firstn_length, skipn_length.
      unfold m. repeat split; lia.
  - exists (firstn j s). split.
    + apply is_text_collect, text_firstn, T.
    + exists [], (skipn j s). cbn [app]. rewrite firstn_skipn, firstn_length. auto with arith.
Qed.
Print Assumptions C40_slices.

(** Lengths count characters, and a text goes in and out unchanged. *)
Theorem C40_contents : forall b s, is_text b s ->
  lb_len b = length s /\ lb_chars b = s /\ (lb_is_empty b = true <-> s = []) /\
  lb_into_inner (lb_from b) = collect s /\ lb_as_bytes b = collect s /\ is_text lb_with_capacity [].
Proof.
  intros b s B. unfold lb_len, lb_chars. rewrite (is_text_chars _ _ B). destruct B as [T ->].
  repeat split; try constructor.
  - destruct s as [|c s]; [reflexivity|]. cbn [collect flat_map]. pose proof (enc1_nonempty c).
    destruct (enc1 c); [congruence|]. discriminate.
  - intros ->. reflexivity.
Qed.
Print Assumptions C40_contents.

(** Non-ASCII text: inserting in the middle of multi-byte characters and past the end. *)
Example C40_case :
  let s := [233; 8364; 128512]%N in
  is_text (collect s) s /\ length (collect s) = 9 /\
  chars (lb_insert (collect s) 1 65) = [233; 65; 8364; 128512]%N /\
  chars (lb_remove (collect s) 2) = [233; 8364]%N /\ lb_remove (collect s) 7 = collect s /\
  lb_range (collect s) 1 2 = [226; 130; 172]%N.
Proof. split; [|repeat split]. split; [repeat constructor|reflexivity]. Qed.
