(** Lemmas about console specifications. *)
From Coq Require Import String Permutation Sorted.
From Verif Require Import Base Lex_Model Lex_Spec Lex_Proofs Storage_Model Storage_Spec Storage_Proofs Conspec_Model Conspec_Spec.
Local Open Scope string_scope.
Local Open Scope list_scope.
Local Open Scope N_scope.

(** * Texts *)

Lemma split_once_is c s a b : split_once c s = Some (a, b) <-> s = a ++ c :: b /\ ~ In c a.
Proof.
  revert a b. induction s as [|x s IH]; intros a b; cbn [split_once].
  - split; [discriminate|]. intros [E _]. destruct a; discriminate E.
  - destruct (x =? c) eqn:X; [apply N.eqb_eq in X; subst x|apply N.eqb_neq in X].
    + split; [intros E; injection E as <- <-; split; [reflexivity|intros []]|]. intros [E H]. destruct a as [|y a]; [injection E as <-; reflexivity|].
      injection E as <- _. destruct H. left. reflexivity.
    + destruct (split_once c s) as [[a' b']|].
      * split.
        -- intros E. injection E as <- <-. destruct (proj1 (IH a' b') eq_refl) as [-> H]. split; [reflexivity|]. intros [E|I]; [exact (X E)|exact (H I)].
        -- intros [E H]. destruct a as [|y a]; [injection E as E1 E2; contradiction|]. injection E as <- E.
           assert (K : Some (a', b') = Some (a, b)) by (apply IH; split; [exact E|intros I; apply H; right; exact I]). injection K as -> ->. reflexivity.
      * split; [discriminate|]. intros [E H]. destruct a as [|y a]; [injection E as E1 E2; contradiction|]. injection E as <- E.
        assert (K : None = Some (a, b)) by (apply IH; split; [exact E|intros I; apply H; right; exact I]). discriminate K.
Qed.
Lemma split_once_none c s : split_once c s = None <-> ~ In c s.
Proof.
  induction s as [|x s IH]; cbn [split_once In]; [split; [intros _ []|reflexivity]|].
  destruct (x =? c) eqn:X; [apply N.eqb_eq in X; subst x; split; [discriminate|intros H; destruct H; left; reflexivity]|]. apply N.eqb_neq in X.
  destruct (split_once c s) as [[a b]|].
  - split; [discriminate|]. intros H. exfalso. assert (K : Some (a, b) = None) by (apply IH; intros I; apply H; right; exact I). discriminate K.
  - split; [|reflexivity]. intros _ [E|I]; [exact (X E)|]. apply (proj1 IH eq_refl I).
Qed.
Lemma strip_suffix_is x s p : strip_suffix x s = Some p <-> s = p ++ x.
Proof.
  revert p. induction s as [|c s IH]; intros p; cbn [strip_suffix].
  - destruct (ustr_eqb [] x) eqn:E; [apply ustr_eqb_eq in E; subst x|apply ustr_eqb_neq in E].
    + split; [intros H; injection H as <-; reflexivity|]. intros H. destruct p; [reflexivity|discriminate H].
    + split; [discriminate|]. intros H. destruct p; [destruct (E H)|discriminate H].
  - destruct (ustr_eqb (c :: s) x) eqn:E; [apply ustr_eqb_eq in E; subst x|apply ustr_eqb_neq in E].
    + split; [intros H; injection H as <-; reflexivity|]. intros H. destruct p as [|y p]; [reflexivity|]. exfalso. apply (f_equal (@length N)) in H.
      rewrite app_length in H. cbn [length] in H. lia.
    + destruct (strip_suffix x s) as [q|].
      * split; [intros H; injection H as <-; cbn [app]; f_equal; apply IH; reflexivity|]. intros H. destruct p as [|y p]; [destruct (E H)|]. injection H as <- H.
        apply IH in H. injection H as ->. reflexivity.
      * split; [discriminate|]. intros H. destruct p as [|y p]; [destruct (E H)|]. injection H as <- H. apply IH in H. discriminate H.
Qed.
Lemma split_on_none c s : ~ In c s -> split_on c s = [s].
Proof.
  induction s as [|x s IH]; intros H; cbn [split_on]; [reflexivity|].
  destruct (x =? c) eqn:X; [apply N.eqb_eq in X; destruct H; left; exact X|]. rewrite IH; [reflexivity|]. intros I. apply H. right. exact I.
Qed.
Lemma split_on_sep c a b : ~ In c a -> split_on c (a ++ c :: b) = a :: split_on c b.
Proof.
  induction a as [|x a IH]; intros H; cbn [split_on app]; [rewrite N.eqb_refl; reflexivity|].
  destruct (x =? c) eqn:X; [apply N.eqb_eq in X; destruct H; left; exact X|]. rewrite IH; [reflexivity|]. intros I. apply H. right. exact I.
Qed.
Lemma split_commas items : items <> [] -> (forall i, In i items -> ~ In 44 i) -> split_on 44 (with_commas items) = items.
Proof.
  induction items as [|x [|y r] IH]; intros NE H; [destruct NE; reflexivity| |].
  - apply split_on_none, H. left. reflexivity.
  - cbn [with_commas]. change (u ",") with [44]. cbn [app]. rewrite split_on_sep by (apply H; left; reflexivity). f_equal. apply IH; [discriminate|]. intros i I. apply H. right. exact I.
Qed.
Lemma split_joins s : split_on 44 s <> [] /\ with_commas (split_on 44 s) = s /\ (forall i, In i (split_on 44 s) -> ~ In 44 i).
Proof.
  induction s as [|c s (NE & J & H)]; cbn [split_on]; [split; [discriminate|]; split; [reflexivity|]; intros i [<-|[]] []|].
  destruct (c =? 44) eqn:X; [apply N.eqb_eq in X; subst c|apply N.eqb_neq in X].
  - split; [discriminate|]. split.
    + destruct (split_on 44 s) as [|p ps]; [destruct (NE eq_refl)|]. cbn [with_commas] in *. rewrite <- J. reflexivity.
    + intros i [<-|I]; [intros []|apply H, I].
  - destruct (split_on 44 s) as [|p ps]; [destruct (NE eq_refl)|]. split; [discriminate|]. split.
    + destruct ps as [|q ps]; cbn [with_commas] in *; rewrite <- J; reflexivity.
    + intros i [<-|I]; [|apply H; right; exact I]. intros [E|I]; [exact (X E)|]. apply (H p (or_introl eq_refl) I).
Qed.

(** * Numbers *)

Lemma digits_radix limit s acc v : uint_digits limit acc s = Ok v <-> from_radix limit 10 acc s = Some v.
Proof.
  revert acc. induction s as [|c s IH]; intros acc; cbn [uint_digits from_radix]; [split; intros E; injection E as ->; reflexivity|].
  destruct (to_digit c 10) as [d|]; [|split; discriminate]. cbv zeta. destruct (acc * 10 <=? limit); [|split; discriminate].
  destruct (acc * 10 + d <=? limit); [apply IH|split; discriminate].
Qed.
Lemma digits_numeral limit s v : s <> [] -> (uint_digits limit 0 s = Ok v <-> numeral 10 s v /\ v <= limit).
Proof.
  intros NE. rewrite digits_radix. split.
  - intros E. apply from_radix_some in E; [|lia]. destruct E as (ds & F & B & -> & L). rewrite N.mul_0_l, N.add_0_l in *. split; [exists ds; auto|]. apply L. lia.
  - intros [(ds & _ & F & B & ->) L]. rewrite (from_radix_complete _ 10 s 0 ds) by (auto; lia). rewrite N.mul_0_l, N.add_0_l.
    destruct s; [destruct (NE eq_refl)|]. apply N.leb_le in L. rewrite L. reflexivity.
Qed.
Lemma digit_char c d : digit_value c d -> d < 10 -> 48 <= c <= 57.
Proof.
  intros D L. assert (T : to_digit c 10 = Some d) by (apply to_digit_spec; [lia|split; assumption]). unfold to_digit in T.
  destruct (is_ascii_digit c) eqn:A; [apply is_ascii_digit_spec in A; exact A|].
  destruct ((97 <=? c) && (c <=? 102)) eqn:X; [|destruct ((65 <=? c) && (c <=? 70)) eqn:Y; [|discriminate T]].
  - apply andb_true_iff in X as [X _]. apply N.leb_le in X. destruct (c - 87 <? 10) eqn:Z; [|discriminate T]. apply N.ltb_lt in Z. lia.
  - apply andb_true_iff in Y as [Y _]. apply N.leb_le in Y. destruct (c - 55 <? 10) eqn:Z; [|discriminate T]. apply N.ltb_lt in Z. lia.
Qed.
Lemma numeral_chars s v c : numeral 10 s v -> In c s -> 48 <= c <= 57.
Proof.
  intros (ds & _ & F & B & _). revert B. induction F as [|x d s ds D F IH]; intros B I; [destruct I|]. inversion B; subst.
  destruct I as [<-|I]; [eapply digit_char; eassumption|apply IH; assumption].
Qed.
Lemma number_is limit s v : uint_from_str limit s = Ok v <-> number_text limit s v.
Proof.
  unfold uint_from_str, number_text. destruct s as [|c r].
  - split; [discriminate|]. intros (d & [E|E] & NU & _); [subst d|discriminate E]. destruct NU as (ds & NE & _). destruct (NE eq_refl).
  - destruct (c =? 43) eqn:P; [apply N.eqb_eq in P; subst c|apply N.eqb_neq in P].
    + destruct r as [|c r].
      * split; [discriminate|]. intros (d & [E|E] & NU & _).
        -- subst d. pose proof (numeral_chars _ _ 43 NU (or_introl eq_refl)). lia.
        -- injection E as <-. destruct NU as (ds & NE & _). destruct (NE eq_refl).
      * rewrite digits_numeral by discriminate. split.
        -- intros [NU L]. exists (c :: r). split; [right; reflexivity|]. split; assumption.
        -- intros (d & [E|E] & NU & L); [subst d; pose proof (numeral_chars _ _ 43 NU (or_introl eq_refl)); lia|]. injection E as ->. split; assumption.
    + rewrite digits_numeral by discriminate. split.
      * intros [NU L]. exists (c :: r). split; [left; reflexivity|]. split; assumption.
      * intros (d & [E|E] & NU & L); [subst d; split; assumption|]. injection E as -> _. destruct (P eq_refl).
Qed.
Lemma nonzero_is s v : nonzero_from_str s = Ok v <-> number_text (2 ^ 32 - 1) s v /\ 0 < v.
Proof.
  unfold nonzero_from_str. change (2 ^ 32 - 1) with 4294967295. rewrite <- (number_is 4294967295 s v). destruct (uint_from_str 4294967295 s) as [w|e].
  - destruct (w =? 0) eqn:Z; [apply N.eqb_eq in Z; subst w|apply N.eqb_neq in Z].
    + split; [discriminate|]. intros [E L]. injection E as <-. lia.
    + split; [intros E; injection E as <-; split; [reflexivity|lia]|]. intros [E _]. exact E.
  - split; [discriminate|]. intros [E _]. discriminate E.
Qed.
Lemma numeral_snoc s v c d : numeral 10 s v -> digit_value c d -> d < 10 -> numeral 10 (s ++ [c]) (v * 10 + d).
Proof.
  intros (ds & NE & F & B & ->) D L. exists (ds ++ [d]). split; [destruct s; discriminate|]. split; [apply Forall2_app; [exact F|constructor; [exact D|constructor]]|].
  split; [apply Forall_app; split; [exact B|constructor; [exact L|constructor]]|]. clear. induction ds as [|x ds IH]; cbn [positional app length].
  - rewrite N.mul_0_l, N.pow_0_r, N.mul_1_r, N.add_0_r. reflexivity.
  - rewrite <- IH, app_length. cbn [length]. rewrite Nat.add_1_r, Nat2N.inj_succ, N.pow_succ_r'. lia.
Qed.
Lemma digits_error limit s acc e pre : uint_digits limit acc s = Err e -> (pre = [] /\ acc = 0 \/ numeral 10 pre acc) ->
  (e = u "invalid digit found in string" /\ exists c, In c s /\ (forall d, digit_value c d -> 10 <= d)) \/
  (e = u "number too large to fit in target type" /\ exists d v r, pre ++ s = d ++ r /\ numeral 10 d v /\ limit < v).
Proof.
  revert acc pre. induction s as [|c s IH]; intros acc pre E H; cbn [uint_digits] in E; [discriminate E|].
  destruct (to_digit c 10) as [d|] eqn:T.
  - apply to_digit_spec in T; [|lia]. destruct T as [D L]. assert (NU : numeral 10 (pre ++ [c]) (acc * 10 + d)).
    { destruct H as [[-> ->]|H]; [|apply numeral_snoc; assumption]. exists [d]. split; [discriminate|]. split; [constructor; [exact D|constructor]|]. split; [constructor; [exact L|constructor]|].
      cbn [positional length]. rewrite N.pow_0_r. lia. }
    assert (LG : acc * 10 <=? limit = false \/ acc * 10 + d <=? limit = false \/ uint_digits limit (acc * 10 + d) s = Err e).
    { destruct (acc * 10 <=? limit); [|left; reflexivity]. destruct (acc * 10 + d <=? limit); [right; right; exact E|right; left; reflexivity]. }
    destruct LG as [LG|[LG|LG]].
    + right. rewrite LG in E. assert (EE : u "number too large to fit in target type" = e) by (clear -E; congruence). split; [symmetry; exact EE|].
      exists (pre ++ [c]), (acc * 10 + d), s. rewrite <- app_assoc. split; [reflexivity|]. split; [exact NU|]. apply N.leb_gt in LG. lia.
    + right. rewrite LG in E. assert (EE : u "number too large to fit in target type" = e) by (clear -E; destruct (acc * 10 <=? limit); congruence). split; [symmetry; exact EE|].
      exists (pre ++ [c]), (acc * 10 + d), s. rewrite <- app_assoc. split; [reflexivity|]. split; [exact NU|]. apply N.leb_gt in LG. lia.
    + destruct (IH _ (pre ++ [c]) LG (or_intror NU)) as [(-> & x & I & X)|(-> & d' & v & r & X & Y & Z)].
      * left. split; [reflexivity|]. exists x. split; [right; exact I|exact X].
      * right. split; [reflexivity|]. exists d', v, r. rewrite <- app_assoc in X. split; [exact X|]. split; assumption.
  - left. assert (EE : u "invalid digit found in string" = e) by (clear -E; congruence). split; [symmetry; exact EE|]. exists c. split; [left; reflexivity|].
    intros d D. destruct (N.lt_ge_cases d 10) as [L|L]; [|exact L]. assert (K : to_digit c 10 = Some d) by (apply to_digit_spec; [lia|split; assumption]).
    rewrite T in K. discriminate K.
Qed.
Lemma nonzero_error s e : nonzero_from_str s = Err e -> not_positive (2 ^ 32 - 1) s e.
Proof.
  unfold nonzero_from_str. change (2 ^ 32 - 1) with 4294967295. set (limit := 4294967295). destruct (uint_from_str limit s) as [v|e'] eqn:E.
  - destruct (v =? 0) eqn:Z; [|discriminate]. apply N.eqb_eq in Z. subst v. intros K. assert (KE : u "number would be zero for non-zero type" = e) by (clear -K; congruence).
    subst e. apply Not_zero, number_is, E.
  - intros K. assert (KE : e' = e) by (clear -K; congruence). subst e'. clear K. unfold uint_from_str in E. destruct s as [|c r].
    + assert (KE : u "cannot parse integer from empty string" = e) by (clear -E; congruence). subst e. apply Not_empty. reflexivity.
    + destruct (c =? 43) eqn:P; [apply N.eqb_eq in P; subst c|].
      * destruct r as [|c r].
        -- assert (KE : u "invalid digit found in string" = e) by (clear -E; congruence). subst e. apply Not_only_plus. reflexivity.
        -- destruct (digits_error _ _ _ _ [] E (or_introl (conj eq_refl eq_refl))) as [(-> & x & I & X)|(-> & d & v & r' & X & Y & Z)].
           ++ apply (Not_digit _ _ x); [right; exact I|exact X].
           ++ apply (Not_large _ _ d v r'); [|exact Y|exact Z]. right. rewrite <- X. reflexivity.
      * destruct (digits_error _ _ _ _ [] E (or_introl (conj eq_refl eq_refl))) as [(-> & x & I & X)|(-> & d & v & r' & X & Y & Z)].
        -- apply (Not_digit _ _ x); assumption.
        -- apply (Not_large _ _ d v r'); [|exact Y|exact Z]. left. exact X.
Qed.

(** * Resolutions *)

Lemma number_chars limit s v c : number_text limit s v -> In c s -> c = 43 \/ 48 <= c <= 57.
Proof.
  intros (d & [->| ->] & NU & _) I; [right; eapply numeral_chars; eassumption|]. change (u "+") with [43] in I. destruct I as [<-|I]; [left; reflexivity|].
  right. eapply numeral_chars; eassumption.
Qed.
Lemma number_nonempty limit s v : number_text limit s v -> s <> [].
Proof. intros (d & [->| ->] & (ds & NE & _) & _); [exact NE|discriminate]. Qed.
Lemma not_fs limit a b v : number_text limit b v -> forall p, a ++ 120 :: b <> p ++ u "fs".
Proof.
  intros NT p E. pose proof (number_nonempty _ _ _ NT) as NE. destruct (exists_last NE) as (b' & c & ->).
  change (u "fs") with ([102] ++ [115]) in E. rewrite app_assoc, app_comm_cons, app_assoc in E. apply app_inj_tail in E. destruct E as [_ ->].
  assert (I : In 115 (b' ++ [115])) by (apply in_or_app; right; left; reflexivity). destruct (number_chars _ _ _ _ NT I) as [X|X]; lia.
Qed.
Lemma split_size a b w : number_text (2 ^ 32 - 1) a w -> split_once 120 (a ++ 120 :: b) = Some (a, b).
Proof. intros NT. apply split_once_is. split; [reflexivity|]. intros I. destruct (number_chars _ _ _ _ NT I) as [X|X]; lia. Qed.
Lemma resolution_is s r : parse_resolution s = Ok r <-> resolution_text s r.
Proof.
  split.
  - unfold parse_resolution. destruct (ustr_eqb s (u "fs")) eqn:F; [apply ustr_eqb_eq in F; subst s; intros E; injection E as <-; apply Text_desktop|].
    destruct (strip_suffix (u "fs") s) as [p|] eqn:ST; [apply strip_suffix_is in ST; subst s|].
    + destruct (split_once 120 p) as [[a b]|] eqn:SO; [|discriminate]. apply split_once_is in SO as [-> _]. destruct (nonzero_from_str a) as [w|] eqn:A; [|discriminate].
      destruct (nonzero_from_str b) as [h|] eqn:B; [|discriminate]. intros E. injection E as <-. apply Text_full. apply nonzero_is in A as [A1 A2]. apply nonzero_is in B as [B1 B2].
      exists a, b. split; [reflexivity|]. split; [exact A1|]. split; [exact B1|]. split; assumption.
    + destruct (split_once 120 s) as [[a b]|] eqn:SO; [|discriminate]. apply split_once_is in SO as [-> _]. destruct (nonzero_from_str a) as [w|] eqn:A; [|discriminate].
      destruct (nonzero_from_str b) as [h|] eqn:B; [|discriminate]. intros E. injection E as <-. apply Text_windowed. apply nonzero_is in A as [A1 A2]. apply nonzero_is in B as [B1 B2].
      exists a, b. split; [reflexivity|]. split; [exact A1|]. split; [exact B1|]. split; assumption.
  - intros [|s' w h (a & b & -> & A & B & W & H)|s' w h (a & b & -> & A & B & W & H)]; [reflexivity| |]; change (u "x") with [120]; cbn [app]; unfold parse_resolution.
    + assert (F : ustr_eqb ((a ++ 120 :: b) ++ u "fs") (u "fs") = false).
      { apply ustr_eqb_neq. intros E. apply (f_equal (@length N)) in E. rewrite !app_length in E. cbn [length] in E. lia. }
      rewrite F. assert (ST : strip_suffix (u "fs") ((a ++ 120 :: b) ++ u "fs") = Some (a ++ 120 :: b)) by (apply strip_suffix_is; reflexivity).
      rewrite ST, (split_size a b w A). rewrite (proj2 (nonzero_is a w) (conj A W)), (proj2 (nonzero_is b h) (conj B H)). reflexivity.
    + assert (F : ustr_eqb (a ++ 120 :: b) (u "fs") = false) by (apply ustr_eqb_neq; apply (not_fs _ a b h B [])).
      rewrite F. assert (ST : strip_suffix (u "fs") (a ++ 120 :: b) = None).
      { destruct (strip_suffix (u "fs") (a ++ 120 :: b)) as [p|] eqn:ST; [|reflexivity]. apply strip_suffix_is in ST. destruct (not_fs _ a b h B p ST). }
      rewrite ST, (split_size a b w A). rewrite (proj2 (nonzero_is a w) (conj A W)), (proj2 (nonzero_is b h) (conj B H)). reflexivity.
Qed.
Lemma Err_of {A} (x y : ustr) : @Err ustr A x = Err y -> y = x.
Proof. intros E. injection E as ->. reflexivity. Qed.
Lemma resolution_fails s m : parse_resolution s = Err m -> not_resolution s m.
Proof.
  unfold parse_resolution. destruct (ustr_eqb s (u "fs")); [discriminate|].
  destruct (strip_suffix (u "fs") s) as [p|] eqn:ST.
  - apply strip_suffix_is in ST. destruct (split_once 120 p) as [[a b]|] eqn:SO.
    + apply split_once_is in SO as [-> NX]. assert (SE : s = a ++ u "x" ++ b ++ u "fs") by (rewrite ST, <- app_assoc; reflexivity).
      destruct (nonzero_from_str a) as [w|e] eqn:A.
      * destruct (nonzero_from_str b) as [h|e] eqn:B; [discriminate|]. intros E. apply Err_of in E. subst m.
        apply (No_height _ a b (u "fs") e); [exact SE|exact NX|right; reflexivity|apply nonzero_error, B].
      * intros E. apply Err_of in E. subst m. apply (No_width _ a (b ++ u "fs") e); [exact SE|exact NX|apply nonzero_error, A].
    + apply split_once_none in SO. intros E. apply Err_of in E. subst m. apply No_size. subst s. intros I. apply in_app_or in I as [I|I]; [exact (SO I)|].
      destruct I as [I|[I|[]]]; discriminate I.
  - assert (NF : forall p, s <> p ++ u "fs").
    { intros p E. apply strip_suffix_is in E. rewrite E in ST. discriminate ST. }
    destruct (split_once 120 s) as [[a b]|] eqn:SO.
    + apply split_once_is in SO as [SE NX]. destruct (nonzero_from_str a) as [w|e] eqn:A.
      * destruct (nonzero_from_str b) as [h|e] eqn:B; [discriminate|]. intros E. apply Err_of in E. subst m.
        apply (No_height _ a b [] e); [rewrite app_nil_r; exact SE|exact NX| |apply nonzero_error, B]. left. split; [reflexivity|]. intros p E. subst b.
        apply (NF (a ++ 120 :: p)). rewrite SE, <- app_assoc. reflexivity.
      * intros E. apply Err_of in E. subst m. apply (No_width _ a b e); [exact SE|exact NX|apply nonzero_error, A].
    + apply split_once_none in SO. intros E. apply Err_of in E. subst m. apply No_size, SO.
Qed.

(** * Flags *)

Lemma hs_remove_in f g l : In g (hs_remove f l) <-> In g l /\ g <> f.
Proof.
  unfold hs_remove. rewrite filter_In. destruct (ustr_eqb f g) eqn:E; cbn [negb]; [apply ustr_eqb_eq in E; subst g|apply ustr_eqb_neq in E].
  - split; [intros [_ X]; discriminate X|intros [_ X]; destruct (X eq_refl)].
  - split; [intros [I _]; split; [exact I|intros X; subst g; destruct (E eq_refl)]|intros [I _]; split; [exact I|reflexivity]].
Qed.
Lemma hm_remove_get k j (m : list (ustr * ustr)) v : hm_get j (hm_remove k m) = Some v <-> hm_get j m = Some v /\ j <> k.
Proof.
  unfold hm_remove. induction m as [|[i w] m IH]; cbn [filter hm_get fst]; [split; [discriminate|intros [X _]; discriminate X]|].
  destruct (ustr_eqb k i) eqn:E; cbn [negb]; [apply ustr_eqb_eq in E; subst i|apply ustr_eqb_neq in E].
  - rewrite IH. destruct (ustr_eqb j k) eqn:J; [apply ustr_eqb_eq in J; subst j; split; intros [_ X]; destruct (X eq_refl)|reflexivity].
  - cbn [hm_get]. destruct (ustr_eqb j i) eqn:J; [apply ustr_eqb_eq in J; subst j|apply IH].
    split; [intros X; split; [exact X|intros Y; subst i; destruct (E eq_refl)]|intros [X _]; exact X].
Qed.
Lemma hm_get_in k (m : list (ustr * ustr)) : In k (map fst m) <-> exists v, hm_get k m = Some v.
Proof.
  induction m as [|[i w] m IH]; cbn [map hm_get fst In]; [split; [intros []|intros [v X]; discriminate X]|].
  destruct (ustr_eqb k i) eqn:E; [apply ustr_eqb_eq in E; subst i; split; [intros _; exists w; reflexivity|intros _; left; reflexivity]|].
  apply ustr_eqb_neq in E. rewrite <- IH. split; [intros [X|X]; [subst i; destruct (E eq_refl)|exact X]|intros X; right; exact X].
Qed.
Lemma hm_remove_nodup k (m : list (ustr * ustr)) : NoDup (map fst m) -> NoDup (map fst (hm_remove k m)).
Proof.
  unfold hm_remove. induction m as [|[i w] m IH]; intros H; cbn [filter map fst]; [exact H|]. inversion H as [|? ? NI ND]; subst.
  destruct (ustr_eqb k i); cbn [negb map fst]; [apply IH, ND|]. constructor; [|apply IH, ND]. intros I. apply NI. apply in_map_iff in I as ([j x] & <- & I).
  apply filter_In in I as [I _]. apply in_map_iff. exists (j, x). split; [reflexivity|exact I].
Qed.
Lemma hs_remove_nodup k l : NoDup l -> NoDup (hs_remove k l).
Proof. apply NoDup_filter. Qed.

Lemma same_key (k k' v v' : ustr) : ~ In 61 k -> ~ In 61 k' -> k ++ 61 :: v = k' ++ 61 :: v' -> k = k' /\ v = v'.
Proof.
  intros H H' E. assert (S1 : split_once 61 (k ++ 61 :: v) = Some (k, v)) by (apply split_once_is; split; [reflexivity|exact H]).
  assert (S2 : split_once 61 (k ++ 61 :: v) = Some (k', v')) by (apply split_once_is; split; [exact E|exact H']). rewrite S1 in S2. injection S2 as -> ->. split; reflexivity.
Qed.
Lemma given_snoc items x k v : value_given (items ++ [x]) k v <->
  ~ In 61 k /\ (x = k ++ 61 :: v \/ value_given items k v /\ (forall v', x <> k ++ 61 :: v')).
Proof.
  unfold value_given. change (u "=") with [61]. cbn [app]. split.
  - intros (NI & l1 & l2 & E & H). split; [exact NI|]. destruct l2 as [|y l2 _] using rev_ind.
    + apply app_inj_tail in E as [_ E]. left. exact E.
    + right. rewrite app_comm_cons, app_assoc in E. apply app_inj_tail in E as [E ->]. split.
      * split; [exact NI|]. exists l1, l2. split; [exact E|]. intros v' I. apply (H v'). apply in_or_app. left. exact I.
      * intros v' ->. apply (H v'). apply in_or_app. right. left. reflexivity.
  - intros (NI & [->|[(_ & l1 & l2 & -> & H) NX]]); (split; [exact NI|]).
    + exists items, []. split; [reflexivity|intros v' []].
    + exists l1, (l2 ++ [x]). split; [rewrite <- app_assoc; reflexivity|]. intros v' I. apply in_app_or in I as [I|[I|[]]]; [exact (H v' I)|]. exact (NX v' I).
Qed.
Lemma loop_is items : let fk := fold_left add_pair items ([], []) in
  (forall f, In f (fst fk) <-> is_given items (Plain f)) /\ (forall k v, hm_get k (snd fk) = Some v <-> value_given items k v) /\
  NoDup (fst fk) /\ NoDup (map fst (snd fk)).
Proof.
  cbv zeta. induction items as [|x items IH] using rev_ind.
  - cbn [fold_left fst snd map hm_get In is_given]. split; [intros f; split; [intros []|intros [[] _]]|]. split; [|split; constructor].
    intros k v. split; [discriminate|]. intros (_ & l1 & l2 & E & _). destruct l1; discriminate E.
  - rewrite fold_left_app. cbn [fold_left]. destruct (fold_left add_pair items ([], [])) as [fl ky]. cbn [fst snd] in IH. destruct IH as (F & K & NF & NK).
    cbn [add_pair]. destruct x as [|c x'].
    + cbn [fst snd]. split; [|split; [|split; assumption]].
      * intros f. rewrite F. cbn [is_given]. rewrite in_app_iff. cbn [In]. split; [intros (I & X); split; [left; exact I|exact X]|].
        intros ([I|[X|[]]] & NE & X'); [split; [exact I|split; assumption]|]. destruct NE. symmetry. exact X.
      * intros k v. rewrite K, given_snoc. split.
        -- intros G. split; [apply G|]. right. split; [exact G|]. intros v' E. destruct k; discriminate E.
        -- intros (_ & [E|[G _]]); [destruct k; discriminate E|exact G].
    + set (x := c :: x') in *. destruct (split_once 61 x) as [[k0 v0]|] eqn:SO; cbn [fst snd].
      * apply split_once_is in SO as [E NI]. split; [|split; [|split; [exact NF|]]].
        -- intros f. rewrite F. cbn [is_given]. rewrite in_app_iff. cbn [In]. split; [intros (I & X); split; [left; exact I|exact X]|].
           intros ([I|[X|[]]] & NE & X'); [split; [exact I|split; assumption]|]. exfalso. apply X'. rewrite <- X, E. apply in_or_app. right. left. reflexivity.
        -- intros k v. rewrite given_snoc. unfold hm_insert. cbn [hm_get]. destruct (ustr_eqb k k0) eqn:KE; [apply ustr_eqb_eq in KE; subst k0|apply ustr_eqb_neq in KE].
           ++ split; [intros X; injection X as ->; split; [exact NI|left; exact E]|]. intros (_ & [X|[_ NX]]); [|destruct (NX v0 E)].
              rewrite E in X. destruct (same_key _ _ _ _ NI NI X) as [_ ->]. reflexivity.
           ++ rewrite hm_remove_get, K. split.
              ** intros [G _]. split; [apply G|]. right. split; [exact G|]. intros v' X. rewrite E in X. destruct (same_key _ _ _ _ NI (proj1 G) X) as [-> _]. destruct (KE eq_refl).
              ** intros (NK' & [X|[G _]]); [|split; assumption]. rewrite E in X. destruct (same_key _ _ _ _ NI NK' X) as [-> _]. destruct (KE eq_refl).
        -- unfold hm_insert. cbn [map fst]. constructor; [|apply hm_remove_nodup, NK]. intros I. apply hm_get_in in I as [v I]. apply hm_remove_get in I as [_ I]. destruct (I eq_refl).
      * apply split_once_none in SO. split; [|split; [|split; [|exact NK]]].
        -- intros f. unfold hs_insert. cbn [In is_given]. rewrite hs_remove_in, F. cbn [is_given]. rewrite in_app_iff. cbn [In]. split.
           ++ intros [<-|[(I & X) _]]; [split; [right; left; reflexivity|split; [discriminate|exact SO]]|split; [left; exact I|exact X]].
           ++ intros ([I|[X|[]]] & NE & X'); [|left; exact X]. destruct (list_eq_dec N.eq_dec x f) as [Y|Y]; [left; exact Y|]. right.
              split; [split; [exact I|split; assumption]|]. intros Z. apply Y. symmetry. exact Z.
        -- intros k v. rewrite K, given_snoc. assert (NX : forall v', x <> k ++ 61 :: v').
           { intros v' E. apply SO. rewrite E. apply in_or_app. right. left. reflexivity. }
           split; [intros G; split; [apply G|right; split; assumption]|]. intros (_ & [E|[G _]]); [destruct (NX v E)|exact G].
        -- unfold hs_insert. constructor; [|apply hs_remove_nodup, NF]. rewrite hs_remove_in. intros [_ X]. apply X. reflexivity.
Qed.

(** What is left after some questions. *)
Definition stands (items : list ustr) (qs : list asked) (c : cspec) : Prop :=
  (forall f, In f (cs_flags c) <-> is_given items (Plain f) /\ ~ In (Plain f) qs) /\
  (forall k v, hm_get k (cs_keyed c) = Some v <-> value_given items k v /\ ~ In (Keyed k) qs) /\ NoDup (cs_flags c) /\ NoDup (map fst (cs_keyed c)).
Lemma init_is s d items : specifies s d items -> exists c, cspec_init s = Some c /\ cs_driver c = d /\ stands items [] c.
Proof.
  assert (Z : forall d items fk, fk = fold_left add_pair items ([], []) -> cs_driver (mkCspec d (fst fk) (snd fk)) = d /\ stands items [] (mkCspec d (fst fk) (snd fk))).
  { intros d' items' fk ->. split; [reflexivity|]. destruct (loop_is items') as (F & K & NF & NK). unfold stands. cbn [cs_flags cs_keyed].
    split; [intros f; rewrite F; split; [intros G; split; [exact G|intros []]|intros [G _]; exact G]|].
    split; [intros k v; rewrite K; split; [intros G; split; [exact G|intros []]|intros [G _]; exact G]|]. split; assumption. }
  intros [d' NE NI|d' items' NI NC].
  - unfold cspec_init. destruct d' as [|c r] eqn:D; [destruct (NE eq_refl)|]. rewrite <- D in *. rewrite (proj2 (split_once_none 58 d') NI).
    eexists. split; [reflexivity|]. apply (Z d' [] ([], [])). reflexivity.
  - change (u ":") with [58]. cbn [app]. unfold cspec_init. destruct (d' ++ 58 :: with_commas items') as [|c r] eqn:D; [destruct d'; discriminate D|]. rewrite <- D. clear c r D.
    rewrite (proj2 (split_once_is 58 _ d' (with_commas items')) (conj eq_refl NI)).
    destruct (fold_left add_pair (split_on 44 (with_commas items')) ([], [])) as [fl ky] eqn:FL. eexists. split; [reflexivity|].
    apply (Z d' items' (fl, ky)). destruct items' as [|x r]; [cbn in FL; rewrite <- FL; reflexivity|]. rewrite split_commas in FL by (try discriminate; exact NC). symmetry. exact FL.
Qed.
Lemma ask_stands items qs c q : stands items qs c -> stands items (qs ++ [q]) (ask c q) /\ cs_driver (ask c q) = cs_driver c.
Proof.
  intros (F & K & NF & NK). assert (IQ : forall p, ~ In p (qs ++ [q]) <-> ~ In p qs /\ p <> q).
  { intros p. rewrite in_app_iff. cbn [In]. split; [intros H; split; [intros I; apply H; left; exact I|intros ->; apply H; right; left; reflexivity]|].
    intros [H1 H2] [I|[I|[]]]; [exact (H1 I)|]. apply H2. symmetry. exact I. }
  split; [|destruct q; reflexivity]. destruct q as [f|k]; cbn [ask take_flag take_keyed_flag_str snd]; (split; [|split; [|split]]); cbn [cs_flags cs_keyed]; try assumption.
  - intros g. rewrite hs_remove_in, F, IQ. split; [intros [[G H] X]; split; [exact G|split; [exact H|intros Y; injection Y as ->; destruct (X eq_refl)]]|].
    intros (G & H & X). split; [split; assumption|]. intros ->. destruct (X eq_refl).
  - intros j v. rewrite K, IQ. split; [intros [G H]; split; [exact G|split; [exact H|discriminate]]|intros (G & H & _); split; assumption].
  - apply hs_remove_nodup, NF.
  - intros g. rewrite F, IQ. split; [intros [G H]; split; [exact G|split; [exact H|discriminate]]|intros (G & H & _); split; assumption].
  - intros j v. rewrite hm_remove_get, K, IQ. split; [intros [[G H] X]; split; [exact G|split; [exact H|intros Y; injection Y as ->; destruct (X eq_refl)]]|].
    intros (G & H & X). split; [split; assumption|]. intros ->. destruct (X eq_refl).
  - apply hm_remove_nodup, NK.
Qed.
Lemma asks_stand items qs c : stands items [] c -> stands items qs (fold_left ask qs c) /\ cs_driver (fold_left ask qs c) = cs_driver c.
Proof.
  intros H. induction qs as [|q qs [IH1 IH2]] using rev_ind; [split; [exact H|reflexivity]|]. rewrite fold_left_app. cbn [fold_left].
  destruct (ask_stands _ _ _ q IH1) as [A B]. split; [exact A|]. rewrite B. exact IH2.
Qed.

(** * The end *)

Lemma sort_insert_perm k l : Permutation (sort_insert k l) (k :: l).
Proof.
  induction l as [|x l IH]; cbn [sort_insert]; [reflexivity|]. destruct (ustr_cmp k x); [reflexivity|reflexivity|].
  eapply Permutation_trans; [apply perm_skip, IH|apply perm_swap].
Qed.
Lemma sort_perm l : Permutation (ustr_sort l) l.
Proof. induction l as [|x l IH]; cbn [ustr_sort]; [reflexivity|]. eapply Permutation_trans; [apply sort_insert_perm|apply perm_skip, IH]. Qed.
Lemma sort_insert_order k l : in_order l -> in_order (sort_insert k l).
Proof.
  unfold in_order. induction l as [|x l IH]; intros H; cbn [sort_insert]; [repeat constructor|].
  destruct (ustr_cmp k x) eqn:C.
  - constructor; [exact H|]. constructor. left. apply cmp_eq, C.
  - constructor; [exact H|]. constructor. right. apply cmp_lt, C.
  - inversion H as [|? ? H1 H2]; subst. constructor; [apply IH, H1|]. destruct l as [|y l]; cbn [sort_insert].
    + constructor. right. apply cmp_gt, C.
    + destruct (ustr_cmp k y); [constructor; right; apply cmp_gt, C|constructor; right; apply cmp_gt, C|]. inversion H2; subst. constructor. assumption.
Qed.
Lemma sort_order l : in_order (ustr_sort l).
Proof. induction l as [|x l IH]; cbn [ustr_sort]; [constructor|]. apply sort_insert_order, IH. Qed.

Lemma join_listed l : join (u ", ") l = listed l.
Proof.
  destruct l as [|x r]; [reflexivity|]. cbn [listed]. revert x. induction r as [|y r IH]; intros x; [cbn [join flat_map]; rewrite app_nil_r; reflexivity|].
  change (join (u ", ") (x :: y :: r)) with (x ++ u ", " ++ join (u ", ") (y :: r)). rewrite IH. cbn [flat_map]. rewrite <- app_assoc. reflexivity.
Qed.
Definition remains (c : cspec) : list asked := map Plain (cs_flags c) ++ map Keyed (map fst (cs_keyed c)).
Lemma remains_names c : map name_of (remains c) = cs_flags c ++ map fst (cs_keyed c).
Proof. unfold remains. rewrite map_app, !map_map. cbn [name_of]. rewrite map_id. reflexivity. Qed.
Lemma nodup_map {A B} (f : A -> B) l : (forall a b, f a = f b -> a = b) -> NoDup l -> NoDup (map f l).
Proof.
  intros J H. induction H as [|x l NI H IH]; cbn [map]; [constructor|]. constructor; [|exact IH]. intros I. apply in_map_iff in I as (y & E & I). apply J in E. subst y. exact (NI I).
Qed.
Lemma nodup_app {A} (l m : list A) : NoDup l -> NoDup m -> (forall x, In x l -> ~ In x m) -> NoDup (l ++ m).
Proof.
  intros H M D. induction H as [|x l NI H IH]; cbn [app]; [exact M|]. constructor; [rewrite in_app_iff; intros [I|I]; [exact (NI I)|exact (D x (or_introl eq_refl) I)]|].
  apply IH. intros y I. apply D. right. exact I.
Qed.
Lemma remains_left items qs c : stands items qs c -> left_over items qs (remains c).
Proof.
  intros (F & K & NF & NK). unfold remains. split.
  - apply nodup_app; [apply nodup_map; [congruence|exact NF]|apply nodup_map; [congruence|exact NK]|].
    intros x I J. apply in_map_iff in I as (f & <- & _). apply in_map_iff in J as (k & E & _). discriminate E.
  - intros q. rewrite in_app_iff, !in_map_iff. split.
    + intros [(f & <- & I)|(k & <- & I)]; [apply F, I|]. apply hm_get_in in I as [v I]. apply K in I as [G H]. split; [exists v; exact G|exact H].
    + intros [G H]. destruct q as [f|k]; [left; exists f; split; [reflexivity|apply F; split; assumption]|]. destruct G as [v G]. right. exists k. split; [reflexivity|].
      apply hm_get_in. exists v. apply K. split; assumption.
Qed.
Lemma finish_is items qs c : stands items qs c ->
  (finish c = Ok tt /\ (forall q, is_given items q -> In q qs)) \/
  (exists left l, left <> [] /\ left_over items qs left /\ Permutation l (map name_of left) /\ in_order l /\
    finish c = Err (u "Console driver " ++ cs_driver c ++ u " does not recognize flags: " ++ listed l)).
Proof.
  intros H. pose proof (remains_left _ _ _ H) as RL. destruct (remains c) as [|r0 rr] eqn:RE.
  - left. split.
    + pose proof (remains_names c) as RN. rewrite RE in RN. cbn [map] in RN. unfold finish. destruct (cs_flags c); [|discriminate RN]. destruct (cs_keyed c); [reflexivity|discriminate RN].
    + intros q G. destruct (in_dec (fun a b : asked => ltac:(decide equality; apply list_eq_dec, N.eq_dec) : {a = b} + {a <> b}) q qs) as [I|I]; [exact I|]. exfalso. apply (proj2 (proj2 RL q) (conj G I)).
  - right. exists (remains c), (ustr_sort (cs_flags c ++ map fst (cs_keyed c))). rewrite <- RE in RL. split; [rewrite RE; discriminate|]. split; [exact RL|].
    rewrite remains_names. split; [apply sort_perm|]. split; [apply sort_order|]. rewrite <- join_listed. unfold finish, remains in *.
    destruct (cs_flags c); [destruct (cs_keyed c); [discriminate RE|reflexivity]|reflexivity].
Qed.
