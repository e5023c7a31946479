(** Editing texts, without byte positions. *)
From Verif Require Import Base Text_Model Text_Proofs.

(** The bytes [b] are the text [s]. *)
Definition is_text (b : list N) (s : ustr) : Prop := text s /\ b = collect s.

(** [s'] is [s] with the [del] characters after the first [k] replaced with [ins]. *)
Definition spliced (s : ustr) (k del : nat) (ins s' : ustr) : Prop :=
  exists pre old post, s = pre ++ old ++ post /\ s' = pre ++ ins ++ post /\
    length pre = k /\ length old = del.

(** [mid] are the [n] characters of [s] after the first [k]. *)
Definition part (s : ustr) (k n : nat) (mid : ustr) : Prop :=
  exists pre post, s = pre ++ mid ++ post /\ length pre = k /\ length mid = n.
