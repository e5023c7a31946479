(** Facts about UTF-8 texts. *)
From Verif Require Import Base Text_Model.
Local Open Scope N_scope.

Definition text (s : ustr) : Prop := Forall (fun c => is_char c = true) s.

Lemma is_char_bound c : is_char c = true -> c < 1114112.
Proof. unfold is_char. lia. Qed.

(** The shape of an encoded character: a leading byte and continuation bytes. *)
Definition cont (x : N) : Prop := 128 <= x < 192.
Definition lead (x : N) : Prop := x < 128 \/ 192 <= x.

Lemma enc1_cases c : is_char c = true ->
  (c < 128 /\ enc1 c = [c]) \/
  (exists a b, enc1 c = [a; b] /\ 128 <= c < 2048 /\ 192 <= a < 224 /\ cont b /\
     c = (a mod 32) * 64 + b mod 64) \/
  (exists a b d, enc1 c = [a; b; d] /\ 2048 <= c < 65536 /\ 224 <= a < 240 /\ cont b /\ cont d /\
     c = (a mod 16) * 4096 + (b mod 64) * 64 + d mod 64) \/
  (exists a b d e, enc1 c = [a; b; d; e] /\ 65536 <= c /\ 240 <= a < 248 /\ cont b /\ cont d /\ cont e /\
     c = (a mod 8) * 262144 + (b mod 64) * 4096 + (d mod 64) * 64 + e mod 64).
Proof.
  intros H. apply is_char_bound in H. unfold enc1, cont.
  destruct (N.ltb_spec c 128); [left; auto|]. right.
  destruct (N.ltb_spec c 2048).
  { left. do 2 eexists. split; [reflexivity|]. repeat split; lia. }
  right. destruct (N.ltb_spec c 65536).
  { left. do 3 eexists. split; [reflexivity|]. repeat split; lia. }
  right. do 4 eexists. split; [reflexivity|]. repeat split; lia.
Qed.

Lemma enc1_len c : length (enc1 c) = utf8_len1 c.
Proof.
  unfold enc1, utf8_len1. destruct (c <? 128); [reflexivity|].
  destruct (c <? 2048); [reflexivity|]. destruct (c <? 65536); reflexivity.
Qed.

Lemma collect_len s : length (collect s) = utf8_len s.
Proof.
  induction s as [|c s IH]; [reflexivity|].
  cbn [collect flat_map utf8_len]. rewrite app_length, enc1_len.
  change (flat_map enc1 s) with (collect s). rewrite IH. reflexivity.
Qed.

Lemma collect_app s t : collect (s ++ t) = collect s ++ collect t.
Proof. apply flat_map_app. Qed.

Lemma chars_enc1 c b : is_char c = true -> chars (enc1 c ++ b) = c :: chars b.
Proof.
  intros H. destruct (enc1_cases c H) as [(L & ->)|[(a & x & -> & L & A & X & E)|
    [(a & x & y & -> & L & A & X & Y & E)|(a & x & y & z & -> & L & A & X & Y & Z & E)]]];
    unfold cont in *; cbn [app chars].
  - destruct (N.ltb_spec c 128); [reflexivity|lia].
  - destruct (N.ltb_spec a 128); [lia|]. destruct (N.ltb_spec a 224); [|lia]. rewrite <- E. reflexivity.
  - destruct (N.ltb_spec a 128); [lia|]. destruct (N.ltb_spec a 224); [lia|].
    destruct (N.ltb_spec a 240); [|lia]. rewrite <- E. reflexivity.
  - destruct (N.ltb_spec a 128); [lia|]. destruct (N.ltb_spec a 224); [lia|].
    destruct (N.ltb_spec a 240); [lia|]. rewrite <- E. reflexivity.
Qed.

Lemma chars_collect s : text s -> chars (collect s) = s.
Proof.
  induction 1 as [|c s H T IH]; [reflexivity|].
  cbn [collect flat_map]. rewrite chars_enc1 by assumption. f_equal. exact IH.
Qed.

Lemma chars_collect_app s b : text s -> chars (collect s ++ b) = s ++ chars b.
Proof.
  induction 1 as [|c s H T IH]; [reflexivity|].
  cbn [collect flat_map]. rewrite <- app_assoc, chars_enc1 by assumption. cbn [app]. f_equal. exact IH.
Qed.

Lemma enc1_nonempty c : enc1 c <> [].
Proof.
  unfold enc1. destruct (c <? 128); [discriminate|]. destruct (c <? 2048); [discriminate|].
  destruct (c <? 65536); discriminate.
Qed.

Lemma text_app s t : text (s ++ t) <-> text s /\ text t.
Proof. apply Forall_app. Qed.

Lemma text_firstn n s : text s -> text (firstn n s).
Proof. intros H. rewrite <- (firstn_skipn n s) in H. apply text_app in H. tauto. Qed.

Lemma text_skipn n s : text s -> text (skipn n s).
Proof. intros H. rewrite <- (firstn_skipn n s) in H. apply text_app in H. tauto. Qed.

Lemma collect_inj s t : text s -> text t -> collect s = collect t -> s = t.
Proof. intros S T E. rewrite <- (chars_collect s S), E. apply chars_collect. exact T. Qed.

Lemma utf8_len_app s t : utf8_len (s ++ t) = (utf8_len s + utf8_len t)%nat.
Proof. induction s as [|c s IH]; cbn [app utf8_len]; [reflexivity|]. rewrite IH. lia. Qed.

(** Encodings start with a leading byte and continue with continuation bytes. *)
Lemma enc1_shape c : is_char c = true -> exists a r, enc1 c = a :: r /\ lead a /\ Forall cont r.
Proof.
  intros H. unfold lead. destruct (enc1_cases c H) as [(L & ->)|[(a & x & -> & L & A & X & E)|
    [(a & x & y & -> & L & A & X & Y & E)|(a & x & y & z & -> & L & A & X & Y & Z & E)]]].
  - exists c, []. split; [reflexivity|]. split; [lia|constructor].
  - exists a, [x]. split; [reflexivity|]. split; [lia|auto].
  - exists a, [x; y]. split; [reflexivity|]. split; [lia|auto].
  - exists a, [x; y; z]. split; [reflexivity|]. split; [lia|auto].
Qed.

Lemma collect_lead s : text s -> s <> [] -> exists a r, collect s = a :: r /\ lead a.
Proof.
  intros [|c s' H T] N; [congruence|].
  destruct (enc1_shape c H) as (a & r & E & L & _). cbn [collect flat_map]. rewrite E.
  exists a, (r ++ flat_map enc1 s'). auto.
Qed.

Lemma boundary_at s i : text s -> (i <= length s)%nat ->
  is_char_boundary (collect s) (utf8_len (firstn i s)) = true.
Proof.
  intros T L. unfold is_char_boundary.
  destruct (nth_error (collect s) (utf8_len (firstn i s))) as [x|] eqn:X.
  - rewrite <- (firstn_skipn i s), collect_app, nth_error_app2, collect_len in X
      by (rewrite ?collect_len, ?firstn_skipn; lia).
    rewrite firstn_skipn, Nat.sub_diag in X.
    destruct (skipn i s) as [|c r] eqn:E; [discriminate|].
    pose proof (text_skipn i s T) as S. rewrite E in S.
    destruct (collect_lead _ S) as (a & q & Eq & A); [discriminate|].
    rewrite Eq in X. cbn [nth_error] in X. injection X as ->. unfold lead in A. lia.
  - apply nth_error_None in X. rewrite collect_len in *. apply Nat.eqb_eq.
    rewrite <- (firstn_skipn i s) in X |- *. rewrite utf8_len_app in *. rewrite firstn_skipn in *. lia.
Qed.

Lemma mid_slice {A} (a m c : list A) : firstn (length m) (skipn (length a) (a ++ m ++ c)) = m.
Proof.
  rewrite skipn_app, skipn_all, Nat.sub_diag. cbn [app skipn].
  rewrite firstn_app, firstn_all, Nat.sub_diag. cbn [firstn]. apply app_nil_r.
Qed.

Lemma slice_at s i j : text s -> (i <= j <= length s)%nat ->
  slice (collect s) (utf8_len (firstn i s)) (utf8_len (firstn j s)) =
  Some (collect (firstn (j - i) (skipn i s))).
Proof.
  intros T L. unfold slice. rewrite !boundary_at by (assumption || lia).
  assert (E : firstn j s = firstn i s ++ firstn (j - i) (skipn i s)).
  { rewrite <- (firstn_skipn i s) at 1. rewrite firstn_app, firstn_firstn, firstn_length.
    replace (Nat.min j i) with i by lia. f_equal. f_equal. lia. }
  rewrite E, utf8_len_app. destruct (Nat.leb_spec (utf8_len (firstn i s))
     (utf8_len (firstn i s) + utf8_len (firstn (j - i) (skipn i s)))); [|lia].
  cbn [andb]. f_equal.
  replace (utf8_len (firstn i s) + utf8_len (firstn (j - i) (skipn i s)) - utf8_len (firstn i s))%nat
    with (utf8_len (firstn (j - i) (skipn i s))) by lia.
  assert (D : collect s = collect (firstn i s) ++ collect (firstn (j - i) (skipn i s)) ++
                collect (skipn (j - i) (skipn i s)))
    by (rewrite <- !collect_app, firstn_skipn, firstn_skipn; reflexivity).
  rewrite D. rewrite <- !collect_len. apply mid_slice.
Qed.

Lemma char_indices_from_nth p s : forall i,
  nth_error (char_indices_from p s) i =
  match nth_error s i with Some c => Some ((p + utf8_len (firstn i s))%nat, c) | None => None end.
Proof.
  revert p; induction s as [|c s IH]; intros p [|i]; cbn [char_indices_from nth_error firstn utf8_len];
    try reflexivity.
  - do 2 f_equal. lia.
  - rewrite IH. destruct (nth_error s i); [|reflexivity]. do 2 f_equal. lia.
Qed.

(** * Searching *)

Lemma starts_with_app n r : starts_with (n ++ r) n = true.
Proof. induction n as [|x n IH]; cbn; [reflexivity|]. rewrite N.eqb_refl. exact IH. Qed.

Lemma starts_with_spec n : forall b, starts_with b n = true -> exists r, b = n ++ r.
Proof.
  induction n as [|x n IH]; intros b H; [exists b; reflexivity|].
  destruct b as [|y b]; [discriminate|]. cbn in H. apply andb_true_iff in H as [X H].
  apply N.eqb_eq in X as ->. destruct (IH _ H) as (r & ->). exists r. reflexivity.
Qed.

(** Prefixes of encoded texts, for whole texts, are prefixes of characters. *)
Lemma prefix_chars n : text n -> forall s, text s ->
  starts_with (collect s) (collect n) = true -> exists r, s = n ++ r.
Proof.
  intros Tn s Ts H. apply starts_with_spec in H as (r & E).
  exists (chars r). rewrite <- (chars_collect s Ts), E. apply chars_collect_app. exact Tn.
Qed.

Lemma starts_with_cont b n x r : cont x -> lead n -> starts_with (x :: b) (n :: r) = false.
Proof. unfold cont, lead. intros C L. cbn. destruct (N.eqb_spec n x); [lia|reflexivity]. Qed.

(** The search over characters. *)
Fixpoint find_chars (s n : ustr) : option nat :=
  if starts_with s n then Some 0%nat
  else match s with
  | [] => None
  | _ :: s' => match find_chars s' n with Some i => Some (S i) | None => None end
  end.

Lemma find_unfold b n : find b n =
  if starts_with b n then Some 0%nat
  else match b with
  | [] => None
  | _ :: b' => match find b' n with Some i => Some (S i) | None => None end
  end.
Proof. destruct b; reflexivity. Qed.

Lemma find_skip q b n l : Forall cont q -> lead l ->
  find (q ++ b) (l :: n) = match find b (l :: n) with Some i => Some (length q + i)%nat | None => None end.
Proof.
  induction 1 as [|x q C Q IH]; intros L; cbn [app].
  - destruct (find b (l :: n)); reflexivity.
  - rewrite find_unfold, starts_with_cont by assumption. rewrite IH by assumption.
    destruct (find b (l :: n)); reflexivity.
Qed.

Lemma starts_with_collect s n : text s -> text n ->
  starts_with (collect s) (collect n) = starts_with s n.
Proof.
  intros Ts Tn. destruct (starts_with s n) eqn:E.
  - apply starts_with_spec in E as (r & ->). rewrite collect_app. apply starts_with_app.
  - destruct (starts_with (collect s) (collect n)) eqn:F; [|reflexivity].
    apply (prefix_chars n Tn s Ts) in F as (r & ->). rewrite starts_with_app in E. discriminate.
Qed.

(** Searching bytes finds the characters. *)
Lemma find_collect n s : text n -> n <> [] -> text s ->
  find (collect s) (collect n) =
  match find_chars s n with Some i => Some (utf8_len (firstn i s)) | None => None end.
Proof.
  intros Tn Nn Ts. destruct (collect_lead n Tn Nn) as (l & q & E & L).
  induction Ts as [|c s H Ts IH].
  - cbn [collect flat_map find_chars]. change (flat_map enc1 []) with (@nil N).
    rewrite find_unfold, E. cbn. destruct n; [congruence|]. reflexivity.
  - assert (T : text (c :: s)) by (constructor; assumption).
    rewrite find_unfold, starts_with_collect by assumption. cbn [find_chars].
    destruct (starts_with (c :: s) n) eqn:P; [reflexivity|].
    cbn [collect flat_map]. destruct (enc1_shape c H) as (a & r & Ec & La & Cr).
    rewrite Ec. cbn [app]. rewrite E in *. rewrite find_skip by assumption.
    change (flat_map enc1 s) with (collect s). rewrite IH.
    destruct (find_chars s n) as [i|]; [|reflexivity].
    cbn [firstn utf8_len]. rewrite <- enc1_len, Ec. cbn [length]. f_equal.
Qed.
