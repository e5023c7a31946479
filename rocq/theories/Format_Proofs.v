(** Facts about refilling and paging. *)
From Verif Require Import Base Text_Model Strings_Model Format_Model Format_Spec.

Lemma split_ws_cons cur s : cur <> [] -> Forall (fun c => is_whitespace c = false) cur ->
  exists w t ws, rev cur ++ s = w ++ t /\ no_space w /\
    (forall c r, t = c :: r -> is_whitespace c = true) /\
    split_ws cur s = w :: ws /\ ws = split_ws [] t /\ length t <= length s.
Proof.
  revert cur. induction s as [|c s IH]; intros cur Nc A; cbn [split_ws].
  - destruct cur as [|x cur]; [congruence|]. exists (rev (x :: cur)), [], [].
    rewrite app_nil_r. repeat split; auto.
    + intros H. apply (f_equal (@rev N)) in H. rewrite rev_involutive in H. discriminate.
    + apply Forall_rev. exact A.
    + discriminate.
  - destruct (is_whitespace c) eqn:W.
    + destruct cur as [|x cur]; [congruence|]. exists (rev (x :: cur)), (c :: s), (split_ws [] s).
      repeat split; auto.
      * intros H. apply (f_equal (@rev N)) in H. rewrite rev_involutive in H. discriminate.
      * apply Forall_rev. exact A.
      * intros d r H. injection H as <- _. exact W.
      * cbn [split_ws]. rewrite W. reflexivity.
    + destruct (IH (c :: cur)) as (w & t & ws & E & Nw & F & S & Ws & L); [discriminate|constructor; assumption|].
      exists w, t, ws. repeat split; auto.
      * cbn [rev] in E. rewrite <- app_assoc in E. exact E.
      * apply Nw. * apply Nw.
      * cbn [length]. lia.
Qed.

Lemma split_words s : words_of s (split_whitespace s).
Proof.
  unfold split_whitespace. remember (length s) as n eqn:En.
  assert (L : length s <= n) by lia. clear En. revert s L.
  induction n as [|n IH]; intros s L.
  - destruct s; [constructor|cbn in L; lia].
  - destruct s as [|c s]; [constructor|]. cbn [split_ws]. destruct (is_whitespace c) eqn:W.
    + constructor; [exact W|]. apply IH. cbn in L. lia.
    + destruct (split_ws_cons [c] s) as (w & t & ws & E & Nw & F & S & Ws & Lt); [discriminate|auto|].
      rewrite S. cbn [rev app] in E. rewrite E. constructor; auto. subst ws. apply IH. cbn in L. lia.
Qed.

Lemma words_nonempty s ws : words_of s ws -> Forall no_space ws.
Proof. induction 1; auto. Qed.

Lemma spaces_gap line w word : word <> [] -> (line = w \/ exists p, p <> [] /\ line = p ++ w) -> w <> [] ->
  refill_spaces line word = Some (gap w word).
Proof.
  intros Ne L Nw. destruct word as [|c word]; [congruence|]. clear Ne.
  destruct (exists_last Nw) as (v & z & ->).
  assert (R : exists q, rev line = z :: q).
  { destruct L as [->|(p & _ & ->)].
    - rewrite rev_app_distr. eexists. reflexivity.
    - rewrite app_assoc, rev_app_distr. eexists. reflexivity. }
  destruct R as (q & R). unfold refill_spaces, ends_with_period, gap. rewrite R, rev_app_distr. cbn [rev app].
  destruct (N.eqb_spec z 46) as [->|Nz]; [|reflexivity].
  f_equal. unfold upper1. destruct (((97 <=? c) && (c <=? 122))%N) eqn:B; cbn [andb negb].
  - destruct (N.eqb_spec c (c - 32)); lia.
  - rewrite N.eqb_refl. reflexivity.
Qed.

Lemma set_line_snoc g : forall w, g <> [] ->
  set_line (g ++ [w]) = set_line g ++ repeat 32%N (gap (last g []) w) ++ w.
Proof.
  induction g as [|a g IH]; intros w Ne; [congruence|].
  destruct g as [|b g]; [reflexivity|].
  change ((a :: b :: g) ++ [w]) with (a :: (b :: g) ++ [w]).
  change (set_line (a :: (b :: g) ++ [w])) with (a ++ repeat 32%N (gap a b) ++ set_line ((b :: g) ++ [w])).
  rewrite IH by discriminate.
  change (set_line (a :: b :: g)) with (a ++ repeat 32%N (gap a b) ++ set_line (b :: g)).
  change (last (a :: b :: g) []) with (last (b :: g) (@nil N)).
  rewrite <- !app_assoc. reflexivity.
Qed.

Lemma set_line_last g : g <> [] -> Forall no_space g ->
  set_line g = last g [] \/ exists p, p <> [] /\ set_line g = p ++ last g [].
Proof.
  induction g as [|a g IH]; intros Ne F; [congruence|].
  destruct g as [|b g]; [left; reflexivity|]. right. inversion F as [|? ? [Na _] F']; subst.
  change (set_line (a :: b :: g)) with (a ++ repeat 32%N (gap a b) ++ set_line (b :: g)).
  change (last (a :: b :: g) []) with (last (b :: g) (@nil N)).
  destruct IH as [E|(p & Np & E)]; [discriminate|exact F'| |]; rewrite E.
  - exists (a ++ repeat 32%N (gap a b)). rewrite <- app_assoc. split; [|reflexivity].
    destruct a; [congruence|discriminate].
  - exists (a ++ repeat 32%N (gap a b) ++ p). rewrite <- !app_assoc. split; [|reflexivity].
    destruct a; [congruence|discriminate].
Qed.

Lemma utf8_app a b : utf8_len (a ++ b) = utf8_len a + utf8_len b.
Proof. induction a as [|c a IH]; cbn [app utf8_len]; [reflexivity|]. rewrite IH. lia. Qed.

Lemma utf8_spaces n : utf8_len (repeat 32%N n) = n.
Proof. induction n as [|n IH]; cbn [repeat utf8_len]; [reflexivity|]. rewrite IH. reflexivity. Qed.

Lemma last_in {A} (g : list A) d : g <> [] -> In (last g d) g.
Proof.
  induction g as [|a g IH]; intros Ne; [congruence|]. destruct g as [|b g]; [left; reflexivity|].
  right. change (last (a :: b :: g) d) with (last (b :: g) d). apply IH. discriminate.
Qed.

(** The state of the loop: finished groups and the group being filled. *)
Definition loop_ok (width : nat) (done : list (list ustr)) (g : list ustr) : Prop :=
  Forall (fun g => g <> []) done /\
  Forall (fun g => length g = 1 \/ utf8_len (set_line g) < width) (done ++ [g]) /\
  (forall i a h w, nth_error (done ++ [g]) i = Some a -> nth_error (done ++ [g]) (S i) = Some (w :: h) ->
     width <= utf8_len (set_line (a ++ [w]))).

Lemma refill_loop_ok width ws : forall done g, g <> [] -> Forall no_space g -> Forall no_space ws ->
  loop_ok width done g ->
  exists groups, refill_loop width (map set_line done) (set_line g) ws = Some (map set_line groups) /\
    concat groups = concat done ++ g ++ ws /\
    Forall (fun g => g <> []) groups /\
    Forall (fun g => length g = 1 \/ utf8_len (set_line g) < width) groups /\
    (forall i g h w, nth_error groups i = Some g -> nth_error groups (S i) = Some (w :: h) ->
       width <= utf8_len (set_line (g ++ [w]))).
Proof.
  induction ws as [|w ws IH]; intros done g Ng Fg Fw (D1 & D2 & D3).
  - exists (done ++ [g]). cbn [refill_loop].
    assert (X : set_line g <> []).
    { destruct (set_line_last g Ng Fg) as [E|(p & Np & E)]; rewrite E.
      - assert (I := last_in g [] Ng). rewrite Forall_forall in Fg. apply (Fg _ I).
      - destruct p; [congruence|discriminate]. }
    destruct (set_line g) as [|x y] eqn:E; [congruence|]. rewrite <- E.
    rewrite map_app, concat_app. cbn [map concat]. rewrite !app_nil_r. repeat split; auto.
    apply Forall_app. auto.
  - inversion Fw as [|? ? Hw Fw']; subst. cbn [refill_loop].
    assert (L := last_in g [] Ng).
    assert (Nl : last g [] <> []) by (rewrite Forall_forall in Fg; apply (Fg _ L)).
    assert (X : set_line g <> []).
    { destruct (set_line_last g Ng Fg) as [E|(p & Np & E)]; rewrite E; [exact Nl|].
      destruct p; [congruence|discriminate]. }
    destruct (set_line g) as [|x y] eqn:E; [congruence|]. rewrite <- E. clear X.
    rewrite (spaces_gap (set_line g) (last g []) w (proj1 Hw) (set_line_last g Ng Fg) Nl).
    pose proof (set_line_snoc g w Ng) as Sn.
    assert (Le : utf8_len (set_line (g ++ [w])) = utf8_len (set_line g) + utf8_len w + gap (last g []) w).
    { rewrite Sn, !utf8_app, utf8_spaces. lia. }
    destruct (Nat.leb_spec width (utf8_len (set_line g) + utf8_len w + gap (last g []) w)) as [B|B].
    + replace (map set_line done ++ [set_line g]) with (map set_line (done ++ [g])) by (rewrite map_app; reflexivity).
      destruct (IH (done ++ [g]) [w]) as (groups & R & C & G1 & G2 & G3); auto.
      * discriminate.
      * split; [apply Forall_app; auto|]. split.
        -- apply Forall_app. split; [exact D2|]. repeat constructor.
        -- intros i a h v Hi Hs. destruct (Nat.lt_ge_cases (S i) (length (done ++ [g]))) as [Li|Li].
           ++ rewrite nth_error_app1 in Hs by lia. rewrite nth_error_app1 in Hi by lia. eauto.
           ++ rewrite nth_error_app2 in Hs by lia.
              assert (Z : S i - length (done ++ [g]) = 0).
              { destruct (S i - length (done ++ [g])) as [|k] eqn:K; [reflexivity|]. cbn in Hs. destruct k; discriminate. }
              rewrite Z in Hs. injection Hs as <- <-.
              assert (Ei : i = length done) by (pose proof (app_length done [g]) as AL; cbn [length] in AL; lia). subst i.
              rewrite nth_error_app1 in Hi by (rewrite app_length; cbn; lia).
              rewrite nth_error_app2, Nat.sub_diag in Hi by lia. injection Hi as <-. lia.
      * exists groups. split; [exact R|]. split; [|auto]. rewrite C, concat_app. cbn [concat]. rewrite app_nil_r.
        rewrite <- app_assoc. reflexivity.
    + rewrite <- Sn.
      destruct (IH done (g ++ [w])) as (groups & R & C & G1 & G2 & G3); auto.
      * destruct g; discriminate.
      * apply Forall_app. auto.
      * split; [exact D1|]. split.
        -- apply Forall_app in D2 as [D2 _]. apply Forall_app. split; [exact D2|]. constructor; [|constructor]. right. lia.
        -- intros i a h v Hi Hs. destruct (Nat.lt_ge_cases (S i) (length done)) as [Li|Li].
           ++ apply (D3 i a h v); rewrite nth_error_app1 by lia.
              ** rewrite nth_error_app1 in Hi by lia. exact Hi.
              ** rewrite nth_error_app1 in Hs by lia. exact Hs.
           ++ rewrite nth_error_app2 in Hs by lia.
              assert (Z : S i - length done = 0).
              { destruct (S i - length done) as [|k] eqn:K; [reflexivity|]. cbn in Hs. destruct k; discriminate. }
              rewrite Z in Hs. cbn [nth_error] in Hs. injection Hs as Hs.
              rewrite nth_error_app1 in Hi by lia.
              destruct g as [|g0 g]; [congruence|]. cbn in Hs. injection Hs as <- <-.
              apply (D3 i a g g0).
              ** rewrite nth_error_app1 by lia. exact Hi.
              ** rewrite nth_error_app2 by lia. rewrite Z. reflexivity.
      * exists groups. split; [exact R|]. split; [|auto]. rewrite C, <- !app_assoc. reflexivity.
Qed.

Lemma refill_filled p width : p <> [] ->
  exists lines, refill p width = Some lines /\ filled width (split_whitespace p) lines.
Proof.
  intros Ne. destruct p as [|c p]; [congruence|]. unfold refill.
  pose proof (words_nonempty _ _ (split_words (c :: p))) as W.
  destruct (split_whitespace (c :: p)) as [|w ws].
  - exists []. split; [reflexivity|]. exists []. repeat split; auto. intros i; destruct i; discriminate.
  - cbn [refill_loop app]. inversion W as [|? ? Hw Ww]; subst.
    destruct (refill_loop_ok width ws [] [w]) as (groups & R & C & G1 & G2 & G3); auto.
    + discriminate.
    + split; [constructor|]. split; [repeat constructor|]. intros i a h v Hi Hs. destruct i; [discriminate|destruct i; discriminate].
    + exists (map set_line groups). split; [exact R|]. exists groups. auto.
Qed.

Lemma words_of_det s a : words_of s a -> forall b, words_of s b -> a = b.
Proof.
  induction 1 as [|c s ws W H IH|w s ws Nw F H IH]; intros b Hb.
  - inversion Hb as [| |w s ws [Nw A] F H' E]; [reflexivity|].
    rewrite E in Nw. apply app_eq_nil in E as [E _]. contradiction.
  - inversion Hb as [|? ? ? W' H' |w s' ws' [Nw A] F H' E]; subst.
    + apply IH. assumption.
    + destruct w as [|x w]; [congruence|]. cbn in E. injection E as -> _. inversion A. congruence.
  - destruct Nw as [Nw A]. destruct w as [|x w]; [congruence|]. inversion A as [|? ? Ax Aw]; subst.
    inversion Hb as [|? ? ? W' H' E|w' s' ws' [Nw' A'] F' H' E]; subst.
    + congruence.
    + assert (G : x :: w = w' /\ s = s').
      { clear - A A' F F' E Nw Nw'. 
        assert (G : forall u v p q, Forall (fun c => is_whitespace c = false) u ->
                  Forall (fun c => is_whitespace c = false) v ->
                  (forall c r, p = c :: r -> is_whitespace c = true) ->
                  (forall c r, q = c :: r -> is_whitespace c = true) ->
                  u ++ p = v ++ q -> u = v /\ p = q).
        { induction u as [|c u IHu]; intros v p q U V P Q Eq.
          - destruct v as [|d v]; [auto|]. cbn in Eq. apply P in Eq. inversion V. congruence.
          - destruct v as [|d v].
            + cbn in Eq. symmetry in Eq. apply Q in Eq. inversion U. congruence.
            + cbn in Eq. injection Eq as <- Eq. inversion U; inversion V; subst.
              destruct (IHu v p q) as [-> ->]; auto. }
        apply G; auto. }
      destruct G as [<- <-]. f_equal. apply IH. assumption.
Qed.

Lemma words_of_app_space a wa : words_of a wa -> forall n b wb, words_of b wb -> n <> 0 ->
  words_of (a ++ repeat 32%N n ++ b) (wa ++ wb).
Proof.
  assert (Sp : forall n b wb, words_of b wb -> words_of (repeat 32%N n ++ b) wb).
  { induction n as [|n IHn]; intros b wb Hb; cbn [repeat app]; [exact Hb|].
    apply words_space; [reflexivity|auto]. }
  induction 1 as [|c s ws W H IH|w s ws Nw F H IH]; intros n b wb Hb Nn.
  - apply Sp. exact Hb.
  - cbn [app]. constructor; auto.
  - rewrite <- app_assoc. cbn [app]. constructor; auto.
    intros c r E. destruct s as [|x s].
    + destruct n; [congruence|]. cbn in E. injection E as <- _. reflexivity.
    + cbn in E. injection E as <- _. eapply F. reflexivity.
Qed.

Lemma words_of_word w : no_space w -> words_of w [w].
Proof.
  intros H. rewrite <- (app_nil_r w) at 1. constructor; [exact H|discriminate|constructor].
Qed.

Lemma words_of_line g : Forall no_space g -> words_of (set_line g) g.
Proof.
  induction g as [|a g IH]; intros F; [constructor|]. inversion F; subst.
  destruct g as [|b g]; [apply words_of_word; assumption|].
  change (set_line (a :: b :: g)) with (a ++ repeat 32%N (gap a b) ++ set_line (b :: g)).
  apply (words_of_app_space a [a]); auto; [apply words_of_word; assumption|].
  unfold gap. destruct (rev a) as [|x l]; [discriminate|].
  destruct b; [discriminate|]. destruct (_ && _); discriminate.
Qed.

(** * Paging *)

(** At every moment either there is room or the prompt comes next, and the prompt only comes when
    there is no room. *)
Definition paged (width height rows cells : nat) (ev : list pager_event) : Prop :=
  forall a b, ev = a ++ b ->
    let k := rows_used utf8_len width rows cells a in
    (k = 0 \/ k < height - 1 \/ exists m b', b = PPrompt m :: b') /\
    (forall m b', b = PPrompt m :: b' -> height - 1 <= k).

Lemma paged_run ops : forall p keys ev r, pg_x p <> 0 -> pg_y p <> 0 ->
  (pg_lines p = 0 \/ pg_lines p < pg_y p - 1) ->
  pager_run true p ops keys = (ev, r) ->
  paged (pg_x p) (pg_y p) (pg_lines p) (pg_columns p) ev /\ r <> PgPanic /\
  (exists done rest, ops = done ++ rest /\
     filter (fun e => negb (is_prompt e)) ev = map op_event done /\
     (forall p' k', r = PgOk p' k' -> rest = [])) /\
  (exists used, match r with
     | PgOk _ keys' => keys = used ++ keys' /\ length used = length (filter is_prompt ev) /\ Forall (eq false) used
     | PgInterrupted => exists more, keys = used ++ true :: more /\
         length (filter is_prompt ev) = S (length used) /\ Forall (eq false) used
     | PgNoKey => keys = used /\ length (filter is_prompt ev) = S (length used) /\ Forall (eq false) used
     | PgPanic => False
     end).
Proof.
  induction ops as [|[s|s] ops IH]; intros p keys ev r X Y U H; cbn [pager_run] in H.
  - injection H as <- <-. split; [|split; [discriminate|split]].
    + intros a b E. symmetry in E. apply app_eq_nil in E as [-> ->]. cbn. split; [tauto|]. discriminate.
    + exists [], []. repeat split; auto.
    + exists []. auto.
  - unfold pager_print in H.
    destruct (Nat.eqb_spec (pg_x p) 0); [contradiction|]. destruct (Nat.eqb_spec (pg_y p) 0); [contradiction|].
    set (rows := pg_lines p + ((pg_columns p + utf8_len s) / pg_x p + 1)) in *.
    assert (Head : forall tl, paged (pg_x p) (pg_y p) rows 0 tl ->
              paged (pg_x p) (pg_y p) (pg_lines p) (pg_columns p) (PLine s :: tl)).
    { intros tl T a b E. destruct a as [|e a].
      - cbn in E. subst b. cbn. split; [tauto|]. discriminate.
      - cbn in E. injection E as <- E. cbn [rows_used]. fold rows. apply T. exact E. }
    assert (Prompt : forall tl, pg_y p - 1 <= rows -> paged (pg_x p) (pg_y p) 0 0 tl ->
              paged (pg_x p) (pg_y p) rows 0 (PPrompt (pg_more p) :: tl)).
    { intros tl L T a b E. destruct a as [|e a].
      - cbn in E. subst b. cbn. split; [eauto|]. auto.
      - cbn in E. injection E as <- E. cbn [rows_used]. apply T. exact E. }
    assert (Nil : paged (pg_x p) (pg_y p) 0 0 []).
    { intros a b E. symmetry in E. apply app_eq_nil in E as [-> ->]. cbn. split; [auto|]. discriminate. }
    destruct (Nat.leb_spec (pg_y p - 1) rows) as [L|L].
    + destruct keys as [|[] keys].
      * injection H as <- <-. split; [auto|]. split; [discriminate|]. split.
        -- exists [OpPrint s], ops. repeat split; auto; discriminate.
        -- exists []. repeat split; auto.
      * injection H as <- <-. split; [auto|]. split; [discriminate|]. split.
        -- exists [OpPrint s], ops. repeat split; auto; discriminate.
        -- exists [], keys. repeat split; auto.
      * destruct (pager_run true (mkPager (pg_x p) (pg_y p) (pg_more p) 0 0) ops keys) as [ev' r'] eqn:R.
        injection H as <- <-.
        destruct (IH (mkPager (pg_x p) (pg_y p) (pg_more p) 0 0) _ _ _ X Y (or_introl eq_refl) R)
          as (P & Np & (done & rest & E & F & K) & (used & Us)).
        cbn [pg_x pg_y pg_lines pg_columns] in P.
        split; [cbn [app]; apply Head, Prompt; assumption|]. split; [exact Np|]. split.
        -- exists (OpPrint s :: done), rest. cbn. rewrite E, F. auto.
        -- exists (false :: used). cbn [app filter is_prompt length]. destruct r'.
           ++ destruct Us as (-> & Lu & Fu). repeat split; auto.
           ++ destruct Us as (more & -> & Lu & Fu). exists more. repeat split; auto.
           ++ exact Us.
           ++ destruct Us as (-> & Lu & Fu). repeat split; auto.
    + destruct (pager_run true (mkPager (pg_x p) (pg_y p) (pg_more p) 0 rows) ops keys) as [ev' r'] eqn:R.
      injection H as <- <-.
      destruct (IH (mkPager (pg_x p) (pg_y p) (pg_more p) 0 rows) _ _ _ X Y (or_intror L) R)
        as (P & Np & (done & rest & E & F & K) & (used & Us)).
      cbn [pg_x pg_y pg_lines pg_columns] in P.
      split; [cbn [app]; apply Head; assumption|]. split; [exact Np|]. split.
      -- exists (OpPrint s :: done), rest. cbn. rewrite E, F. auto.
      -- exists used. exact Us.
  - cbn [pager_write] in H.
    set (p1 := mkPager (pg_x p) (pg_y p) (pg_more p) (pg_columns p + utf8_len s) (pg_lines p)) in *.
    destruct (pager_run true p1 ops keys) as [ev' r'] eqn:R. injection H as <- <-.
    destruct (IH p1 _ _ _ X Y U R) as (P & Np & (done & rest & E & F & K) & (used & Us)).
    subst p1. cbn [pg_x pg_y pg_lines pg_columns] in P.
    split; [|split; [exact Np|split]].
    + intros a b Eq. destruct a as [|e a].
      * cbn in Eq. subst b. cbn. split; [tauto|]. discriminate.
      * cbn in Eq. injection Eq as <- Eq. cbn [rows_used]. apply P. exact Eq.
    + exists (OpWrite s :: done), rest. cbn. rewrite E, F. auto.
    + exists used. exact Us.
Qed.

Lemma rows_used_mono f g width ev : (forall s, f s <= g s) -> forall r r' c c', r <= r' -> c <= c' ->
  width <> 0 -> rows_used f width r c ev <= rows_used g width r' c' ev.
Proof.
  intros L. induction ev as [|[s|s|s] ev IH]; intros r r' c c' R C W; cbn [rows_used]; auto.
  - apply IH; auto. pose proof (L s). pose proof (Nat.div_le_mono (c + f s) (c' + g s) width W). lia.
  - apply IH; auto. pose proof (L s). lia.
Qed.

Lemma chars_le_bytes s : length s <= utf8_len s.
Proof.
  induction s as [|c s IH]; cbn [length utf8_len]; [lia|]. unfold utf8_len1.
  destruct (c <? 128)%N; [lia|]. destruct (c <? 2048)%N; [lia|]. destruct (c <? 65536)%N; lia.
Qed.

Lemma quiet_run ops : forall p keys, pager_run false p ops keys = (map op_event ops, PgOk p keys).
Proof.
  induction ops as [|[s|s] ops IH]; intros p keys; cbn [pager_run pager_print pager_write map op_event]; [reflexivity|..].
  - rewrite IH. reflexivity.
  - rewrite IH. reflexivity.
Qed.
