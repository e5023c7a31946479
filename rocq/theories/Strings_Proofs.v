(** Facts about the string functions. *)
From Verif Require Import Base Text_Model Text_Proofs Linebuf_Spec Strings_Model Strings_Spec.

Lemma is_text_chars b s : is_text b s -> chars b = s.
Proof. intros [T ->]. apply chars_collect. exact T. Qed.

Lemma byte_index_at s i : text s ->
  char_index_to_byte_index (collect s) i = utf8_len (firstn i s).
Proof.
  intros T. unfold char_index_to_byte_index, char_indices. rewrite chars_collect by assumption.
  rewrite char_indices_from_nth. destruct (nth_error s i) eqn:E; [reflexivity|].
  apply nth_error_None in E. rewrite collect_len, firstn_all2 by assumption. reflexivity.
Qed.

Lemma slice_chars s i j : text s -> i <= j <= length s ->
  slice_by_char_range (collect s) i j = Some (collect (firstn (j - i) (skipn i s))).
Proof.
  intros T L. unfold slice_by_char_range. rewrite !byte_index_at by assumption.
  apply slice_at; assumption.
Qed.

Lemma part_of s i j : i <= j <= length s -> part s i (j - i) (firstn (j - i) (skipn i s)).
Proof.
  intros L. exists (firstn i s), (skipn (j - i) (skipn i s)).
  rewrite !firstn_skipn, !firstn_length, skipn_length. repeat split; lia.
Qed.

Lemma find_chars_some s n : forall i, find_chars s n = Some i ->
  occurs_at s n i /\ forall j, j < i -> ~ occurs_at s n j.
Proof.
  induction s as [|c s IH]; intros i H; cbn [find_chars] in H.
  - destruct (starts_with [] n) eqn:E; [|discriminate]. injection H as <-.
    split; [|lia]. apply starts_with_spec in E as (r & E). exists [], r. auto.
  - destruct (starts_with (c :: s) n) eqn:E.
    + injection H as <-. split; [|lia]. apply starts_with_spec in E as (r & E). exists [], r. auto.
    + destruct (find_chars s n) as [k|]; [|discriminate]. injection H as <-.
      destruct (IH k eq_refl) as [(pre & post & -> & L) F]. split.
      * exists (c :: pre), post. cbn. auto.
      * intros j J (p & q & Ep & Lp). destruct p as [|x p].
        { cbn in Ep. rewrite Ep, starts_with_app in E. discriminate. }
        cbn in Ep, Lp. injection Ep as <- Ep. apply (F (length p)); [lia|].
        exists p, q. auto.
Qed.

Lemma find_chars_none s n : find_chars s n = None -> forall j, ~ occurs_at s n j.
Proof.
  induction s as [|c s IH]; intros H j (p & q & Ep & Lp); cbn [find_chars] in H.
  - destruct (starts_with [] n) eqn:E; [discriminate|].
    destruct p; [|discriminate]. cbn in Ep. rewrite Ep, starts_with_app in E. discriminate.
  - destruct (starts_with (c :: s) n) eqn:E; [discriminate|].
    destruct (find_chars s n) as [k|]; [discriminate|].
    destruct p as [|x p].
    + cbn in Ep. rewrite Ep, starts_with_app in E. discriminate.
    + cbn in Ep. injection Ep as <- Ep. apply (IH eq_refl (length p)). exists p, q. auto.
Qed.

Lemma occurs_skipn s n a k : a <= length s -> occurs_at (skipn a s) n k -> occurs_at s n (a + k).
Proof.
  intros L (p & q & E & Lp). exists (firstn a s ++ p), q. rewrite <- app_assoc, <- E, firstn_skipn.
  rewrite app_length, firstn_length. split; [reflexivity|lia].
Qed.

Lemma occurs_le s n k : occurs_at s n k -> k + length n <= length s.
Proof. intros (p & q & -> & <-). rewrite !app_length. lia. Qed.

Lemma occurs_unskip s n a k : a <= k -> occurs_at s n k -> occurs_at (skipn a s) n (k - a).
Proof.
  intros L (p & q & -> & <-). exists (skipn a p), q. rewrite skipn_app, skipn_length.
  replace (a - length p) with 0 by lia. auto.
Qed.

Lemma instr_ok start s n b m : is_text b s -> is_text m n ->
  (0 < start)%Z -> exists i, fn_instr (Some start) b m = Some (Ok i) /\ first_occurrence s n start i.
Proof.
  intros [T ->] [Tn ->] P. unfold fn_instr. destruct (Z.leb_spec start 0); [lia|].
  rewrite chars_collect by assumption. set (a := Z.to_nat (start - 1)).
  destruct (Nat.ltb_spec (length s) a) as [L|L].
  { exists 0%Z. split; [reflexivity|]. left. split; [reflexivity|].
    intros k K O. apply occurs_le in O. lia. }
  destruct n as [|c n].
  { cbn [collect flat_map]. exists (Z.of_nat (a + 1)). split; [reflexivity|]. right. exists a.
    split; [lia|]. split; [lia|]. split; [|intros; lia].
    exists (firstn a s), (skipn a s). cbn [app]. rewrite firstn_skipn, firstn_length. split; [reflexivity|lia]. }
  destruct (collect (c :: n)) as [|x y] eqn:E.
  { cbn [collect flat_map] in E. apply app_eq_nil in E as [E _]. apply enc1_nonempty in E. contradiction. }
  rewrite <- E. rewrite byte_index_at by assumption.
  pose proof (slice_at s a (length s) T) as Sl. rewrite firstn_all in Sl.
  rewrite collect_len. rewrite Sl by lia.
  rewrite (firstn_all2 (skipn a s)) by (rewrite skipn_length; lia).
  rewrite find_collect; [|assumption|discriminate|apply text_skipn, T].
  destruct (find_chars (skipn a s) (c :: n)) as [k|] eqn:F.
  - apply find_chars_some in F as [O M].
    pose proof (occurs_le _ _ _ (occurs_skipn _ _ _ _ L O)) as B.
    unfold byte_index_to_char_index.
    replace (utf8_len (firstn a s) + utf8_len (firstn k (skipn a s)))
      with (utf8_len (firstn (a + k) s)).
    2: { rewrite <- utf8_len_app. f_equal. rewrite <- (firstn_skipn a s) at 1.
         rewrite firstn_app, firstn_firstn, firstn_length. f_equal; f_equal; lia. }
    pose proof (slice_at s 0 (a + k) T) as S0. cbn [firstn utf8_len skipn] in S0. rewrite S0 by lia.
    rewrite chars_collect by (apply text_firstn, T). rewrite firstn_length.
    eexists. split; [reflexivity|]. right. exists (a + k). split; [lia|]. split; [lia|].
    split; [apply occurs_skipn; assumption|].
    intros j J1 J2 Oj. apply (M (j - a)); [lia|]. apply occurs_unskip; [lia|exact Oj].
  - eexists. split; [reflexivity|]. left. split; [reflexivity|].
    intros k K O. apply (find_chars_none _ _ F (k - a)). apply occurs_unskip; [lia|exact O].
Qed.

(** * Trimming *)

Lemma trim_left_spec s : exists a, s = a ++ trim_left s /\ spaces a /\ no_space_first (trim_left s).
Proof.
  induction s as [|c s IH]; cbn [trim_left].
  - exists []. repeat split; [constructor|]. intros c r. discriminate.
  - destruct (is_whitespace c) eqn:E.
    + destruct IH as (a & H & S & F). exists (c :: a). cbn [app]. rewrite <- H. repeat split; auto.
      constructor; assumption.
    + exists []. repeat split; [constructor|]. intros x r H. injection H as <- _. exact E.
Qed.

Lemma trim_right_spec s : let r := rev (trim_left (rev s)) in
  exists a, s = r ++ a /\ spaces a /\ no_space_last r.
Proof.
  cbn. destruct (trim_left_spec (rev s)) as (a & H & S & F). exists (rev a).
  rewrite <- rev_app_distr, <- H, rev_involutive. repeat split.
  - unfold spaces in *. apply Forall_rev. exact S.
  - intros c r E. apply (F c (rev r)). rewrite <- (rev_involutive (trim_left (rev s))), E, rev_app_distr.
    reflexivity.
Qed.

Lemma trim_left_text s : text s -> text (trim_left s).
Proof.
  intros T. destruct (trim_left_spec s) as (a & H & _). rewrite H in T. apply text_app in T. tauto.
Qed.

(** * The numeric prefix *)

Lemma digit_bool c : is_digit c = true <-> (48 <= c <= 57)%N.
Proof. unfold is_digit. lia. Qed.

Lemma digit_run_spec l : exists d r, l = d ++ r /\ digits d /\ length d = digit_run l /\
  (forall c q, r = c :: q -> ~ (48 <= c <= 57)%N).
Proof.
  induction l as [|c l IH]; cbn [digit_run].
  - exists [], []. repeat split; [constructor|]. discriminate.
  - destruct (is_digit c) eqn:E.
    + destruct IH as (d & r & -> & D & L & N). exists (c :: d), r. cbn. repeat split; auto.
      constructor; [apply digit_bool; exact E|exact D].
    + exists [], (c :: l). repeat split; [constructor|]. intros x q H X. injection H as <- _.
      apply digit_bool in X. congruence.
Qed.

(** A run of digits followed by a non-digit is determined. *)
Lemma digits_unique d : forall d' r r', digits d -> digits d' -> d ++ r = d' ++ r' ->
  (forall c q, r = c :: q -> ~ (48 <= c <= 57)%N) ->
  exists x, d = d' ++ x /\ r' = x ++ r.
Proof.
  induction d as [|c d IH]; intros d' r r' D D' E N.
  - destruct d' as [|c' d']; [exists []; auto|].
    cbn in E. exfalso. apply (N c' (d' ++ r') E). inversion D'; assumption.
  - destruct d' as [|c' d'].
    + exists (c :: d). cbn in *. auto.
    + cbn in E. injection E as <- E. inversion D; inversion D'; subst.
      destruct (IH d' r r') as (x & -> & ->); auto. exists x. auto.
Qed.

Lemma nth_error_at {A} (a b : list A) : nth_error (a ++ b) (length a) = nth_error b 0.
Proof. rewrite nth_error_app2, Nat.sub_diag by lia. reflexivity. Qed.

Lemma skip_digits_at a b : skip_digits (a ++ b) (length a) = length a + digit_run b.
Proof. unfold skip_digits. rewrite skipn_app, skipn_all, Nat.sub_diag. reflexivity. Qed.

Definition is_sign_char (c : N) : Prop := c = 43%N \/ c = 45%N.

(** The optional sign that the code skips. *)
Lemma sign_split t : exists sg t1, t = sg ++ t1 /\ sign sg /\
  (sg = [] -> forall c q, t1 = c :: q -> ~ is_sign_char c) /\
  length sg = match nth_error t 0 with
              | Some c => if ((c =? 43) || (c =? 45))%N then 1 else 0
              | None => 0
              end.
Proof.
  unfold is_sign_char. destruct t as [|c t]; cbn [nth_error].
  - exists [], []. unfold sign. repeat split; auto. discriminate.
  - destruct (N.eqb_spec c 43); [|destruct (N.eqb_spec c 45)]; cbn [orb].
    + exists [c], t. unfold sign. subst. repeat split; auto. discriminate.
    + exists [c], t. unfold sign. subst. repeat split; auto. discriminate.
    + exists [], (c :: t). unfold sign. repeat split; auto. intros _ x q H. injection H as <- _. intuition.
Qed.

Lemma mantissa_first m c q : mantissa m -> m = c :: q -> ~ is_sign_char c.
Proof.
  unfold is_sign_char. intros [(D & N)|(d & f & -> & D & F & N)] E.
  - subst m. inversion D; subst. lia.
  - destruct d as [|x d]; cbn in E.
    + injection E as <- _. lia.
    + injection E as <- _. inversion D; subst. lia.
Qed.

Lemma mantissa_nonempty m : mantissa m -> m <> [].
Proof. intros [(D & N)|(d & f & -> & _)]; [exact N|]. destruct d; discriminate. Qed.

Lemma sign_unique sg t1 s' m' r : sign sg -> sign s' -> mantissa m' ->
  (sg = [] -> forall c q, t1 = c :: q -> ~ is_sign_char c) ->
  sg ++ t1 = s' ++ m' ++ r -> s' = sg /\ t1 = m' ++ r.
Proof.
  intros S S' M F E. destruct m' as [|c m']; [apply mantissa_nonempty in M; congruence|].
  pose proof (mantissa_first _ c m' M eq_refl) as NC. unfold sign, is_sign_char in *.
  destruct S as [->|[-> | ->]], S' as [->|[-> | ->]]; cbn in E |- *; try (split; congruence).
  - exfalso. apply (F eq_refl _ _ E). auto.
  - exfalso. apply (F eq_refl _ _ E). auto.
  - exfalso. apply NC. injection E as <- _. auto.
  - exfalso. apply NC. injection E as <- _. auto.
Qed.

(** What the code takes for the mantissa. *)
Definition take_mantissa (t1 : list N) : option nat :=
  let k := digit_run t1 in
  if match nth_error t1 k with Some c => (c =? 46)%N | None => false end then
    let j := skip_digits t1 (S k) in
    if (Nat.eqb k 0 && Nat.eqb j (S k))%bool then None else Some j
  else if Nat.eqb k 0 then None else Some k.

Lemma digits_app a b : digits (a ++ b) <-> digits a /\ digits b.
Proof. apply Forall_app. Qed.

Lemma exponent_first e c q : exponent e -> e = c :: q -> c = 101%N \/ c = 69%N.
Proof. intros [->|(x & s & d & -> & X & _)] E; [discriminate|]. injection E as <- _. exact X. Qed.

Lemma take_mantissa_spec t1 :
  match take_mantissa t1 with
  | Some k => exists m rest, t1 = m ++ rest /\ length m = k /\ mantissa m /\
      forall m' e' r, t1 = m' ++ e' ++ r -> mantissa m' -> exponent e' ->
        (m' = m /\ rest = e' ++ r) \/ (e' = [] /\ length m' <= length m)
  | None => forall m' e' r, t1 = m' ++ e' ++ r -> ~ mantissa m'
  end.
Proof.
  unfold take_mantissa. destruct (digit_run_spec t1) as (d & t2 & -> & D & <- & Nd).
  rewrite nth_error_at.
  assert (K : forall m' x, d ++ t2 = m' ++ x -> mantissa m' ->
     (digits m' /\ m' <> [] /\ exists y, d = m' ++ y /\ x = y ++ t2) \/
     exists f', m' = d ++ [46%N] ++ f' /\ digits f' /\ (d <> [] \/ f' <> []) /\ t2 = 46%N :: f' ++ x).
  { intros m' x E [(D' & N')|(d' & f' & -> & D' & F' & N')].
    - left. repeat split; auto. destruct (digits_unique d m' t2 x D D' E Nd) as (y & -> & ->). eauto.
    - right. rewrite <- !app_assoc in E.
      destruct (digits_unique d d' t2 _ D D' E Nd) as (y & -> & Y).
      destruct y as [|c y].
      + cbn in Y. rewrite app_nil_r in *. exists f'. repeat split; auto.
      + cbn in Y. injection Y as <- _. apply digits_app in D as [_ D]. inversion D; lia. }
  assert (J : match nth_error t2 0 with Some c => (c =? 46)%N | None => false end = true ->
              exists t3, t2 = 46%N :: t3).
  { destruct t2 as [|c t3]; [discriminate|]. cbn. intros H. apply N.eqb_eq in H as ->. eauto. }
  destruct (match nth_error t2 0 with Some c => (c =? 46)%N | None => false end) eqn:Dot.
  - destruct (J eq_refl) as (t3 & ->). clear J Dot.
    replace (S (length d)) with (length (d ++ [46%N])) by (rewrite app_length; cbn; lia).
    replace (d ++ 46%N :: t3) with ((d ++ [46%N]) ++ t3) by (rewrite <- app_assoc; reflexivity).
    rewrite skip_digits_at. rewrite app_length. cbn [length].
    destruct (digit_run_spec t3) as (f & t4 & -> & F & <- & Nf).
    destruct (Nat.eqb_spec (length d) 0) as [Ld|Ld]; cbn [andb].
    + destruct (Nat.eqb_spec (length d + 1 + length f) (length d + 1)) as [Lf|Lf].
      * apply length_zero_iff_nil in Ld. subst d. assert (f = []) by (apply length_zero_iff_nil; cbn in Lf; lia).
        subst f. intros m' e' r E M. cbn [app] in *.
        destruct (K m' (e' ++ r) E M) as [(D' & N' & y & E' & _)|(f' & -> & F' & [X|X] & E')].
        -- symmetry in E'. apply app_eq_nil in E' as [-> _]. congruence.
        -- congruence.
        -- cbn in E'. injection E' as E'. destruct f' as [|x f']; [congruence|].
           cbn in E'. apply (Nf x _ E'). inversion F'; assumption.
      * exists (d ++ [46%N] ++ f), t4. rewrite !app_length. cbn [length].
        split; [rewrite <- !app_assoc; reflexivity|]. split; [lia|].
        split. { right. exists d, f. repeat split; auto. right. intros ->. cbn in Lf. lia. }
        intros m' e' r E M X. rewrite <- app_assoc in E. cbn [app] in E.
        destruct (K m' (e' ++ r) E M) as [(D' & N' & y & E' & E2)|(f' & -> & F' & _ & E')].
        -- apply length_zero_iff_nil in Ld. subst d. symmetry in E'. apply app_eq_nil in E' as [-> _]. congruence.
        -- cbn [app] in E'. injection E' as E'.
           destruct (digits_unique f f' t4 _ F F' E' Nf) as (x & -> & Ex).
           destruct x as [|c x].
           ++ left. rewrite app_nil_r. cbn in Ex. auto.
           ++ right. destruct e' as [|z e'].
              ** split; [reflexivity|]. repeat (rewrite ?app_length; cbn [length app]). lia.
              ** cbn in Ex. injection Ex as -> _. apply digits_app in F as [_ F].
                 destruct (exponent_first _ _ _ X eq_refl) as [-> | ->]; inversion F; lia.
    + exists (d ++ [46%N] ++ f), t4. rewrite !app_length. cbn [length].
      split; [rewrite <- !app_assoc; reflexivity|]. split; [lia|].
      split. { right. exists d, f. repeat split; auto. left. intros ->. cbn in Ld. lia. }
      intros m' e' r E M X. rewrite <- app_assoc in E. cbn [app] in E.
      destruct (K m' (e' ++ r) E M) as [(D' & N' & y & E' & E2)|(f' & -> & F' & _ & E')].
      * right. assert (Le : length m' <= length d) by (rewrite E', app_length; lia).
        split; [|lia]. destruct e' as [|z e']; [reflexivity|].
        pose proof (exponent_first _ _ _ X eq_refl) as Z.
        destruct y as [|c y]; cbn in E2.
        -- injection E2 as -> _. lia.
        -- injection E2 as -> _. rewrite E' in D. apply digits_app in D as [_ D]. inversion D; lia.
      * cbn [app] in E'. injection E' as E'.
        destruct (digits_unique f f' t4 _ F F' E' Nf) as (x & -> & Ex).
        destruct x as [|c x].
        -- left. rewrite app_nil_r. cbn in Ex. auto.
        -- right. destruct e' as [|z e'].
           ++ split; [reflexivity|]. repeat (rewrite ?app_length; cbn [length app]). lia.
           ++ cbn in Ex. injection Ex as -> _. apply digits_app in F as [_ F].
              destruct (exponent_first _ _ _ X eq_refl) as [-> | ->]; inversion F; lia.
  - assert (Nt : forall q, t2 <> 46%N :: q) by (intros q ->; discriminate).
    destruct (Nat.eqb_spec (length d) 0) as [Ld|Ld].
    + apply length_zero_iff_nil in Ld. subst d. intros m' e' r E M.
      destruct (K m' (e' ++ r) E M) as [(D' & N' & y & E' & _)|(f' & _ & _ & _ & E')].
      * symmetry in E'. apply app_eq_nil in E' as [-> _]. congruence.
      * apply (Nt _ E').
    + exists d, t2. split; [reflexivity|]. split; [reflexivity|].
      split. { left. split; [exact D|]. intros ->. cbn in Ld. lia. }
      intros m' e' r E M X.
      destruct (K m' (e' ++ r) E M) as [(D' & N' & y & E' & E2)|(f' & _ & _ & _ & E')].
      * destruct y as [|c y].
        -- left. rewrite app_nil_r in E'. cbn in E2. auto.
        -- right. split.
           ++ destruct e' as [|z e']; [reflexivity|]. cbn in E2. injection E2 as -> _.
              rewrite E' in D. apply digits_app in D as [_ D].
              destruct (exponent_first _ _ _ X eq_refl) as [-> | ->]; inversion D; lia.
           ++ rewrite E', app_length. lia.
      * exfalso. apply (Nt _ E').
Qed.

(** What the code takes for the exponent, as a number of bytes. *)
Definition take_exponent (rest : list N) : nat :=
  if match nth_error rest 0 with Some c => ((c =? 101) || (c =? 69))%N | None => false end then
    let j := match nth_error rest 1 with
             | Some c => if ((c =? 43) || (c =? 45))%N then 2 else 1
             | None => 1
             end in
    let k := skip_digits rest j in
    if Nat.ltb j k then k else 0
  else 0.

Lemma take_exponent_spec rest : exists e r0, rest = e ++ r0 /\ length e = take_exponent rest /\
  exponent e /\ forall e' r, rest = e' ++ r -> exponent e' -> length e' <= length e.
Proof.
  unfold take_exponent. destruct rest as [|c rest].
  { exists [], []. repeat split; [left; reflexivity|]. intros e' r E _. symmetry in E.
    apply app_eq_nil in E as [-> _]. auto. }
  cbn [nth_error]. destruct ((c =? 101) || (c =? 69))%N eqn:C.
  2: { exists [], (c :: rest). repeat split; [left; reflexivity|]. intros e' r E X.
       destruct e' as [|z e']; [auto|]. cbn in E. injection E as <- _.
       destruct (exponent_first _ _ _ X eq_refl) as [-> | ->]; cbn in C; discriminate. }
  assert (Cc : c = 101%N \/ c = 69%N) by lia.
  destruct (sign_split rest) as (sg & t1 & -> & Sg & Fs & Ls).
  change (match sg ++ t1 with [] => None | x :: _ => Some x end) with (nth_error (sg ++ t1) 0) in *.
  assert (J : match nth_error (sg ++ t1) 0 with
              | Some c0 => if ((c0 =? 43) || (c0 =? 45))%N then 2 else 1
              | None => 1 end = length (c :: sg)).
  { cbn [length]. rewrite Ls. destruct (nth_error (sg ++ t1) 0) as [x|]; [|reflexivity].
    destruct ((x =? 43) || (x =? 45))%N; reflexivity. }
  rewrite J. change (c :: sg ++ t1) with ((c :: sg) ++ t1). rewrite skip_digits_at.
  destruct (digit_run_spec t1) as (d & t2 & -> & D & <- & Nd).
  assert (Max : forall s' d' r, sg ++ d ++ t2 = s' ++ d' ++ r -> sign s' -> digits d' -> d' <> [] ->
             s' = sg /\ length d' <= length d).
  { intros s' d' r E S' D' N'.
    destruct (sign_unique sg (d ++ t2) s' d' r Sg S') as (-> & E2); auto.
    - left. auto.
    - split; [reflexivity|]. destruct (digits_unique d d' t2 r D D' E2 Nd) as (y & -> & _).
      rewrite app_length. lia. }
  destruct (Nat.ltb_spec (length (c :: sg)) (length (c :: sg) + length d)) as [L|L].
  - exists ((c :: sg) ++ d), t2. rewrite <- app_assoc, app_length. split; [reflexivity|]. split; [reflexivity|].
    split. { right. exists c, sg, d. repeat split; auto. intros ->. cbn in L. lia. }
    intros e' r E [->|(x & s' & d' & -> & X & S' & D' & N')]; [cbn; lia|].
    cbn in E. injection E as _ E. rewrite <- app_assoc in E.
    destruct (Max _ _ _ E S' D' N') as (-> & Ld). cbn [length]. rewrite app_length. lia.
  - exists [], ((c :: sg) ++ d ++ t2). split; [reflexivity|]. split; [reflexivity|]. split; [left; reflexivity|].
    intros e' r E [->|(x & s' & d' & -> & X & S' & D' & N')]; [cbn; lia|].
    cbn in E. injection E as _ E. rewrite <- app_assoc in E.
    destruct (Max _ _ _ E S' D' N') as (-> & Ld). destruct d'; [congruence|]. cbn in Ld. lia.
Qed.

Lemma nth_error_plus {A} (a b : list A) k : nth_error (a ++ b) (length a + k) = nth_error b k.
Proof. rewrite nth_error_app2 by lia. f_equal. lia. Qed.

Lemma skip_digits_plus a b k : skip_digits (a ++ b) (length a + k) = length a + skip_digits b k.
Proof.
  unfold skip_digits. rewrite skipn_app, skipn_all2 by lia.
  replace (length a + k - length a) with k by lia. cbn [app]. lia.
Qed.

Lemma ascii_collect p : Forall (fun c => (c < 128)%N) p -> collect p = p /\ text p /\ utf8_len p = length p.
Proof.
  induction 1 as [|c p H P IH]; [repeat split; constructor|].
  destruct IH as (C & T & L). split; [|split].
  - cbn [collect flat_map]. change (flat_map enc1 p) with (collect p). rewrite C. unfold enc1.
    destruct (N.ltb_spec c 128); [reflexivity|lia].
  - constructor; [unfold is_char; lia|exact T].
  - cbn [utf8_len length]. unfold utf8_len1. destruct (N.ltb_spec c 128); [lia|lia].
Qed.

Lemma number_ascii p : number p -> Forall (fun c => (c < 128)%N) p.
Proof.
  assert (D : forall d, digits d -> Forall (fun c => (c < 128)%N) d).
  { intros d. apply Forall_impl. intros; lia. }
  assert (G : forall s, sign s -> Forall (fun c => (c < 128)%N) s).
  { intros s [->|[-> | ->]]; repeat constructor. }
  intros (s & m & e & -> & S & M & E). apply Forall_app. split; [auto|]. apply Forall_app. split.
  - destruct M as [(M & _)|(d & f & -> & Dd & Df & _)]; [auto|].
    apply Forall_app. split; [auto|]. apply Forall_app. split; [repeat constructor|auto].
  - destruct E as [->|(c & g & d & -> & C & Sg & Dd & _)]; [constructor|].
    constructor; [lia|]. apply Forall_app. auto.
Qed.

Lemma slice_ascii w p r : text w -> collect w = p ++ r -> Forall (fun c => (c < 128)%N) p ->
  slice (collect w) 0 (length p) = Some p.
Proof.
  intros T E A. destruct (ascii_collect p A) as (C & Tp & L).
  assert (W : w = p ++ chars r).
  { rewrite <- (chars_collect w T), E, <- C at 1. apply chars_collect_app. exact Tp. }
  pose proof (slice_at w 0 (length p) T) as S. cbn [firstn utf8_len skipn] in S.
  assert (F : firstn (length p) w = p)
    by (rewrite W, firstn_app, firstn_all, Nat.sub_diag; cbn [firstn]; apply app_nil_r).
  rewrite Nat.sub_0_r, F, L, C in S. apply S. rewrite W, app_length. lia.
Qed.

Lemma numeric_prefix s w : text w -> fn_ltrim s = collect w ->
  match parse_numeric_prefix s with
  | NpZero => forall q r, collect w = q ++ r -> ~ number q
  | NpParse p => longest_number (collect w) p
  | NpPanic => False
  end.
Proof.
  intros T H. unfold parse_numeric_prefix. rewrite H. cbv zeta.
  destruct (sign_split (collect w)) as (sg & t1 & E & Sg & Fs & Ls).
  rewrite <- Ls. pose proof (take_mantissa_spec t1) as TM.
  assert (Step : (if match nth_error (collect w) (skip_digits (collect w) (length sg)) with
                     | Some c => (c =? 46)%N | None => false end
      then if (negb (length sg <? skip_digits (collect w) (length sg)) &&
               (skip_digits (collect w) (S (skip_digits (collect w) (length sg))) =?
                S (skip_digits (collect w) (length sg))))%bool
           then None else Some (skip_digits (collect w) (S (skip_digits (collect w) (length sg))))
      else if negb (length sg <? skip_digits (collect w) (length sg)) then None
           else Some (skip_digits (collect w) (length sg))) =
      match take_mantissa t1 with Some k => Some (length sg + k) | None => None end).
  { rewrite E, skip_digits_at, nth_error_plus. unfold take_mantissa.
    rewrite plus_n_Sm, skip_digits_plus.
    replace (negb (length sg <? length sg + digit_run t1)) with (digit_run t1 =? 0)
      by (destruct (Nat.ltb_spec (length sg) (length sg + digit_run t1)),
                   (Nat.eqb_spec (digit_run t1) 0); cbn; lia).
    replace (length sg + skip_digits t1 (S (digit_run t1)) =? length sg + S (digit_run t1))
      with (skip_digits t1 (S (digit_run t1)) =? S (digit_run t1))
      by (destruct (Nat.eqb_spec (skip_digits t1 (S (digit_run t1))) (S (digit_run t1))),
          (Nat.eqb_spec (length sg + skip_digits t1 (S (digit_run t1))) (length sg + S (digit_run t1))); lia).
    destruct (match nth_error t1 (digit_run t1) with Some c => (c =? 46)%N | None => false end).
    - destruct ((digit_run t1 =? 0) && _)%bool; reflexivity.
    - destruct (digit_run t1 =? 0); reflexivity. }
  rewrite Step. clear Step.
  destruct (take_mantissa t1) as [k|].
  - destruct TM as (m & rest & -> & <- & M & Max).
    destruct (take_exponent_spec rest) as (e & r0 & Er & Le & Ex & MaxE).
    match goal with |- match match slice _ _ ?x with _ => _ end with _ => _ end =>
      assert (Stop : x = length (sg ++ m ++ e)) end.
    { rewrite !app_length, Le. rewrite E, app_assoc.
      replace (length sg + length m) with (length (sg ++ m)) by (rewrite app_length; reflexivity).
      rewrite nth_error_at. unfold take_exponent.
      destruct (match nth_error rest 0 with Some c => ((c =? 101) || (c =? 69))%N | None => false end);
        [|rewrite !app_length; lia].
      replace (S (length (sg ++ m))) with (length (sg ++ m) + 1) by lia. rewrite nth_error_plus.
      assert (J : match nth_error rest 1 with
                  | Some c => if ((c =? 43) || (c =? 45))%N then S (length (sg ++ m) + 1) else length (sg ++ m) + 1
                  | None => length (sg ++ m) + 1 end =
                  length (sg ++ m) + match nth_error rest 1 with
                  | Some c => if ((c =? 43) || (c =? 45))%N then 2 else 1 | None => 1 end).
      { destruct (nth_error rest 1) as [c|]; [|reflexivity].
        destruct ((c =? 43) || (c =? 45))%N; lia. }
      rewrite J, skip_digits_plus.
      set (j := match nth_error rest 1 with Some c => _ | None => _ end).
      destruct (Nat.ltb_spec (length (sg ++ m) + j) (length (sg ++ m) + skip_digits rest j)),
               (Nat.ltb_spec j (skip_digits rest j)); rewrite ?app_length; lia. }
    rewrite Stop.
    assert (Nb : number (sg ++ m ++ e)) by (exists sg, m, e; auto).
    assert (Eq : collect w = (sg ++ m ++ e) ++ r0) by (rewrite E, Er, <- !app_assoc; reflexivity).
    rewrite (slice_ascii w _ r0 T Eq (number_ascii _ Nb)).
    split; [exact Nb|]. split; [eauto|].
    intros q r Eq' (s' & m' & e' & -> & S' & M' & E').
    assert (Q : sg ++ m ++ rest = s' ++ m' ++ e' ++ r) by (rewrite <- E, Eq', <- !app_assoc; reflexivity).
    apply sign_unique in Q as (-> & Q); auto.
    destruct (Max m' e' r Q M' E') as [(-> & R)|(-> & L)].
    + specialize (MaxE e' r R E'). rewrite !app_length. lia.
    + rewrite !app_length. cbn. lia.
  - intros q r Eq (s' & m' & e' & -> & S' & M' & E').
    assert (Q : sg ++ t1 = s' ++ m' ++ e' ++ r) by (rewrite <- E, Eq, <- !app_assoc; reflexivity).
    apply sign_unique in Q as (-> & Q); auto.
    exact (TM _ _ _ Q M').
Qed.

(** * Decimal integers *)

Lemma digits_value_app a : forall acc b,
  digits_value acc (a ++ b) = digits_value (digits_value acc a) b.
Proof. induction a as [|c a IH]; intros acc b; cbn [app digits_value]; [reflexivity|apply IH]. Qed.

Lemma decimal_spec f : forall n, (n < 2 ^ N.of_nat f)%N ->
  digits (decimal f n) /\ (n <> 0%N \/ f <> 0 -> decimal f n <> []) /\ digits_value 0 (decimal f n) = Z.of_N n.
Proof.
  induction f as [|f IH]; intros n L; cbn [decimal].
  - change (2 ^ N.of_nat 0)%N with 1%N in L. split; [constructor|]. split; [intros; lia|]. cbn. lia.
  - destruct (N.ltb_spec n 10).
    + split; [repeat constructor; lia|]. split; [discriminate|]. cbn [digits_value]. lia.
    + rewrite Nat2N.inj_succ, N.pow_succ_r' in L.
      destruct (IH (n / 10)%N) as (D & N' & V); [lia|].
      split; [apply digits_app; split; [exact D|repeat constructor; lia]|].
      split; [intros _ E; apply app_eq_nil in E as [_ E]; discriminate|].
      rewrite digits_value_app, V. cbn [digits_value]. lia.
Qed.

Lemma to_string_spec i : denotes_integer (to_string i) i.
Proof.
  unfold to_string. set (n := Z.abs_N i). set (f := S (N.to_nat (N.log2 n))).
  assert (L : (n < 2 ^ N.of_nat f)%N).
  { subst f. rewrite Nat2N.inj_succ, N2Nat.id. destruct (N.eq_dec n 0) as [->|].
    - cbn. lia.
    - apply N.log2_spec. lia. }
  destruct (decimal_spec f n L) as (D & Ne & V).
  assert (Ne' : decimal f n <> []) by (apply Ne; right; subst f; discriminate).
  destruct (Z.ltb_spec i 0).
  - exists [45%N], (decimal f n). repeat split; auto. { right; right; reflexivity. } rewrite V. lia.
  - exists [], (decimal f n). repeat split; auto. { left; reflexivity. } rewrite V. lia.
Qed.

Lemma digits_value_mono l : digits l -> forall acc, (0 <= acc)%Z -> (acc <= digits_value acc l)%Z.
Proof.
  induction 1 as [|c l C L IH]; intros acc A; cbn [digits_value]; [lia|].
  specialize (IH (acc * 10 + (Z.of_N c - 48))%Z). lia.
Qed.

Lemma parse_digits_spec l : digits l -> forall (neg : bool) acc, (0 <= acc)%Z ->
  in_i32 (if neg then - acc else acc)%Z ->
  parse_digits neg (if neg then - acc else acc)%Z l =
  let v := (if neg then - digits_value acc l else digits_value acc l)%Z in
  if is_i32 v then Some v else None.
Proof.
  induction 1 as [|c l C L IH]; intros neg acc A R; cbn [parse_digits digits_value].
  - apply is_i32_spec in R. cbv zeta. rewrite R. reflexivity.
  - rewrite (proj2 (digit_bool c) C).
    assert (Nn : (0 <= acc * 10 + (Z.of_N c - 48))%Z) by lia.
    pose proof (digits_value_mono l L _ Nn) as Mono.
    assert (St : (if neg then (if neg then - acc else acc) * 10 - Z.of_N (c - 48)
                  else (if neg then - acc else acc) * 10 + Z.of_N (c - 48))%Z =
                 (if neg then - (acc * 10 + (Z.of_N c - 48)) else acc * 10 + (Z.of_N c - 48))%Z)
      by (destruct neg; lia).
    rewrite St.
    destruct (is_i32 ((if neg then - acc else acc) * 10)) eqn:M.
    + destruct (is_i32 (if neg then - (acc * 10 + (Z.of_N c - 48)) else acc * 10 + (Z.of_N c - 48))) eqn:Q.
      * apply IH; [exact Nn|]. apply is_i32_spec. exact Q.
      * cbv zeta. unfold is_i32, i32_min, i32_max in *.
        destruct neg; [destruct ((-2147483648 <=? - digits_value (acc * 10 + (Z.of_N c - 48)) l)%Z &&
            (- digits_value (acc * 10 + (Z.of_N c - 48)) l <=? 2147483647)%Z)%bool eqn:Z|
          destruct ((-2147483648 <=? digits_value (acc * 10 + (Z.of_N c - 48)) l)%Z &&
            (digits_value (acc * 10 + (Z.of_N c - 48)) l <=? 2147483647)%Z)%bool eqn:Z];
          try reflexivity; lia.
    + cbv zeta. unfold is_i32, i32_min, i32_max in *.
      destruct neg; [destruct ((-2147483648 <=? - digits_value (acc * 10 + (Z.of_N c - 48)) l)%Z &&
            (- digits_value (acc * 10 + (Z.of_N c - 48)) l <=? 2147483647)%Z)%bool eqn:Z|
          destruct ((-2147483648 <=? digits_value (acc * 10 + (Z.of_N c - 48)) l)%Z &&
            (digits_value (acc * 10 + (Z.of_N c - 48)) l <=? 2147483647)%Z)%bool eqn:Z];
          try reflexivity; lia.
Qed.

Lemma parse_digits_digits l : forall neg acc v, parse_digits neg acc l = Some v -> digits l.
Proof.
  induction l as [|c l IH]; intros neg acc v H; [constructor|].
  cbn [parse_digits] in H. destruct (is_digit c) eqn:D; [|discriminate].
  destruct (is_i32 (acc * 10)); [|discriminate].
  match type of H with (if ?b then _ else _) = _ => destruct b; [|discriminate] end.
  constructor; [apply digit_bool; exact D|]. eapply IH. exact H.
Qed.

Lemma parse_integer_spec s i : parse_integer s = Some i <-> denotes_integer s i /\ in_i32 i.
Proof.
  assert (Z0 : in_i32 0) by (unfold in_i32, i32_min, i32_max; lia).
  split.
  - intros H. unfold parse_integer in H. destruct s as [|c s]; [discriminate|].
    assert (X : forall (neg : bool) l, parse_digits neg 0 l = Some i -> digits l /\
               i = (if neg then - digits_value 0 l else digits_value 0 l)%Z /\ in_i32 i).
    { intros neg l E. pose proof (parse_digits_digits _ _ _ _ E) as D. split; [exact D|].
      pose proof (parse_digits_spec l D neg 0 ltac:(lia)) as P. cbv zeta in P.
      replace (if neg then - 0 else 0)%Z with 0%Z in P by (destruct neg; reflexivity).
      specialize (P Z0). rewrite E in P.
      match type of P with _ = (if ?b then _ else _) => destruct b eqn:Q; [|discriminate] end.
      assert (P' : i = (if neg then - digits_value 0 l else digits_value 0 l)%Z) by congruence.
      split; [exact P'|]. rewrite P'. apply is_i32_spec. exact Q. }
    destruct (N.eqb_spec c 43); [|destruct (N.eqb_spec c 45)]; cbn [orb] in H.
    + destruct s as [|c' s]; [discriminate|]. subst c.
      destruct (X _ _ H) as (D & -> & R). split; [|exact R].
      exists [43%N], (c' :: s). repeat split; auto; [right; left; reflexivity|discriminate].
    + destruct s as [|c' s]; [discriminate|]. subst c. 
      destruct (X _ _ H) as (D & -> & R). split; [|exact R].
      exists [45%N], (c' :: s). repeat split; auto; [right; right; reflexivity|discriminate].
    + destruct (X _ _ H) as (D & -> & R). split; [|exact R].
      exists [], (c :: s). repeat split; auto; [left; reflexivity|discriminate].
  - intros [(sg & d & -> & Sg & D & Ne & ->) R].
    assert (X : forall neg : bool, in_i32 (if neg then - digits_value 0 d else digits_value 0 d)%Z ->
        parse_digits neg 0 d = Some (if neg then - digits_value 0 d else digits_value 0 d)%Z).
    { intros neg Q. pose proof (parse_digits_spec d D neg 0 ltac:(lia)) as P. cbv zeta in P.
      replace (if neg then - 0 else 0)%Z with 0%Z in P by (destruct neg; reflexivity).
      specialize (P Z0). rewrite P. apply is_i32_spec in Q. rewrite Q. reflexivity. }
    destruct d as [|c d]; [congruence|].
    destruct Sg as [->|[-> | ->]]; cbn [app].
    + unfold parse_integer. inversion D; subst.
      destruct (N.eqb_spec c 43); [lia|]. destruct (N.eqb_spec c 45); [lia|]. cbn [orb].
      apply (X false). exact R.
    + unfold parse_integer. apply (X false). exact R.
    + unfold parse_integer. apply (X true). exact R.
Qed.
