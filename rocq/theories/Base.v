(** Shared vocabulary: text as code point lists, bounded integers, results. *)
From Coq Require Import Ascii String.
From Coq Require Export List Arith NArith ZArith Bool Lia.
From Coq Require Export ZifyBool ZifyNat ZifyN.
Export ListNotations.

Ltac Zify.zify_post_hook ::= Z.div_mod_to_equations.

(** Rust [String]/[&str]: a list of Unicode scalar values. *)
Definition ustr := list N.

(** Only for writing literals in examples and in tables copied from the code. *)
Fixpoint u (s : string) : ustr :=
  match s with
  | EmptyString => []
  | String c s' => N_of_ascii c :: u s'
  end.

(** Rust [Result]. *)
Inductive res (E A : Type) : Type :=
| Ok (a : A)
| Err (e : E).
Arguments Ok {E A} a.
Arguments Err {E A} e.

Definition is_ok {E A} (r : res E A) : bool :=
  match r with Ok _ => true | Err _ => false end.

(** Ranges of the Rust integer types. *)
Definition i32_min : Z := (-2147483648)%Z.
Definition i32_max : Z := 2147483647%Z.
Definition in_i32 (z : Z) : Prop := (i32_min <= z <= i32_max)%Z.
Definition is_i32 (z : Z) : bool := ((i32_min <=? z) && (z <=? i32_max))%Z.
Definition i16_min : Z := (-32768)%Z.
Definition i16_max : Z := 32767%Z.
Definition in_i16 (z : Z) : Prop := (i16_min <= z <= i16_max)%Z.
Definition is_i16 (z : Z) : bool := ((i16_min <=? z) && (z <=? i16_max))%Z.

Lemma is_i32_spec z : is_i32 z = true <-> in_i32 z.
Proof. unfold is_i32, in_i32. lia. Qed.

Lemma is_i16_spec z : is_i16 z = true <-> in_i16 z.
Proof. unfold is_i16, in_i16. lia. Qed.

(** Equality of texts. *)
Fixpoint ustr_eqb (a b : ustr) : bool :=
  match a, b with
  | [], [] => true
  | x :: a', y :: b' => N.eqb x y && ustr_eqb a' b'
  | _, _ => false
  end.

Lemma ustr_eqb_eq a b : ustr_eqb a b = true <-> a = b.
Proof.
  revert b. induction a as [|x a IH]; intros [|y b]; cbn [ustr_eqb]; split; intros H;
    try reflexivity; try discriminate.
  - apply andb_true_iff in H as [Hx Ha]. apply N.eqb_eq in Hx. apply IH in Ha. congruence.
  - injection H as -> ->. rewrite N.eqb_refl. cbn. apply IH. reflexivity.
Qed.

Lemma ustr_eqb_refl a : ustr_eqb a a = true.
Proof. apply ustr_eqb_eq. reflexivity. Qed.

Lemma ustr_eqb_neq a b : ustr_eqb a b = false <-> a <> b.
Proof.
  destruct (ustr_eqb a b) eqn:E.
  - apply ustr_eqb_eq in E. split; [discriminate | intros H; exfalso; auto].
  - split; [|reflexivity]. intros _ H. apply ustr_eqb_eq in H. congruence.
Qed.

Definition ustr_dec (a b : ustr) : {a = b} + {a <> b}.
Proof. destruct (ustr_eqb a b) eqn:E; [left; apply ustr_eqb_eq | right; apply ustr_eqb_neq]; exact E. Defined.

(** ASCII case conversion, as [to_ascii_uppercase] / [to_ascii_lowercase]. *)
Definition upper1 (c : N) : N := if ((97 <=? c) && (c <=? 122))%N then (c - 32)%N else c.
Definition lower1 (c : N) : N := if ((65 <=? c) && (c <=? 90))%N then (c + 32)%N else c.
Definition ascii_upper (s : ustr) : ustr := map upper1 s.
Definition ascii_lower (s : ustr) : ustr := map lower1 s.

(** Length in bytes of the UTF-8 encoding. *)
Definition utf8_len1 (c : N) : nat :=
  if (c <? 128)%N then 1 else if (c <? 2048)%N then 2 else if (c <? 65536)%N then 3 else 4.
Fixpoint utf8_len (s : ustr) : nat :=
  match s with [] => 0 | c :: s' => utf8_len1 c + utf8_len s' end.

(** Updating one position of a list (Rust [v\[i\] = x], [i < len] is the caller's duty). *)
Fixpoint upd {A} (l : list A) (i : nat) (x : A) : list A :=
  match l, i with
  | [], _ => []
  | _ :: l', 0 => x :: l'
  | y :: l', S i' => y :: upd l' i' x
  end.

Lemma upd_length {A} (l : list A) i x : length (upd l i x) = length l.
Proof. revert i; induction l as [|y l IH]; intros [|i]; cbn; auto. Qed.

Lemma upd_nth_same {A} (l : list A) i x : i < length l -> nth_error (upd l i x) i = Some x.
Proof.
  revert i; induction l as [|y l IH]; intros [|i]; cbn; intros H; try lia; auto.
  apply IH. lia.
Qed.

Lemma upd_nth_other {A} (l : list A) i j x : i <> j -> nth_error (upd l i x) j = nth_error l j.
Proof.
  revert i j; induction l as [|y l IH]; intros [|i] [|j]; cbn; intros H; try lia; auto.
Qed.

Lemma upd_app_l {A} (l m : list A) i x : i < length l -> upd (l ++ m) i x = upd l i x ++ m.
Proof.
  revert i; induction l as [|y l IH]; intros [|i]; cbn; intros H; try lia; auto.
  rewrite IH by lia. reflexivity.
Qed.

Lemma upd_nil_iff {A} (l : list A) i x : upd l i x = [] <-> l = [].
Proof. destruct l, i; cbn; split; intros; congruence. Qed.

Lemma nth_error_ext {A} (l m : list A) : (forall i, nth_error l i = nth_error m i) -> l = m.
Proof.
  revert m; induction l as [|x l IH]; intros [|y m] H; auto.
  - specialize (H 0); discriminate.
  - specialize (H 0); discriminate.
  - f_equal. { specialize (H 0). cbn in H. congruence. }
    apply IH. intros i. exact (H (S i)).
Qed.

Lemma skipn_skipn {A} (n m : nat) (l : list A) : skipn n (skipn m l) = skipn (n + m) l.
Proof.
  revert l; induction m as [|m IH]; intros l; [rewrite Nat.add_0_r; reflexivity|].
  rewrite <- plus_n_Sm. destruct l as [|x l]; cbn [skipn]; [destruct n; reflexivity|apply IH].
Qed.
