(** Proofs about arrays, the heap and tagged data pointers. *)
From Verif Require Import Base Bytecode_Model Mem_Model Mem_Spec.
Local Open Scope N_scope.

Lemma as_i32_range v : in_i32 (as_i32 v).
Proof.
  unfold as_i32, in_i32, i32_min, i32_max. change (2^32) with 4294967296.
  change (2^31) with 2147483648. change (2^32)%Z with 4294967296%Z.
  pose proof (N.mod_lt v 4294967296 ltac:(lia)).
  destruct (N.ltb_spec (v mod 4294967296) 2147483648); lia.
Qed.

Lemma i32_as_u64_lt z : i32_as_u64 z < 2 ^ 64.
Proof.
  unfold i32_as_u64. change (2^64)%Z with 18446744073709551616%Z.
  change (2^64) with 18446744073709551616.
  pose proof (Z.mod_pos_bound z 18446744073709551616 ltac:(lia)). lia.
Qed.

Lemma as_i32_as_u64 z : in_i32 z -> as_i32 (i32_as_u64 z) = z.
Proof.
  unfold in_i32, i32_min, i32_max, as_i32, i32_as_u64. intros H.
  change (2^64)%Z with 18446744073709551616%Z. change (2^32)%Z with 4294967296%Z.
  change (2^32) with 4294967296. change (2^31) with 2147483648.
  set (q := Z.to_N (z mod 18446744073709551616)).
  assert (E : q mod 4294967296 = Z.to_N (z mod 4294967296)).
  { unfold q. apply N2Z.inj. rewrite N2Z.inj_mod, !Z2N.id by (apply Z.mod_pos_bound; lia).
    change (Z.of_N 4294967296) with 4294967296%Z. lia. }
  rewrite E. destruct (N.ltb_spec (Z.to_N (z mod 4294967296)) 2147483648); lia.
Qed.

Lemma i32_as_u64_inj a b : in_i32 a -> in_i32 b -> i32_as_u64 a = i32_as_u64 b -> a = b.
Proof. intros Ha Hb E. rewrite <- (as_i32_as_u64 a Ha), <- (as_i32_as_u64 b Hb), E. reflexivity. Qed.

Lemma i32_as_u64_nonneg z : (0 <= z)%Z -> in_i32 z -> i32_as_u64 z = Z.to_N z.
Proof.
  unfold in_i32, i32_min, i32_max, i32_as_u64. change (2^64)%Z with 18446744073709551616%Z.
  intros. rewrite Z.mod_small; lia.
Qed.

Lemma as_i32_small v : v < 2 ^ 31 -> as_i32 v = Z.of_N v.
Proof.
  unfold as_i32. change (2^32) with 4294967296. change (2^31) with 2147483648. intros.
  rewrite N.mod_small by lia. destruct (N.ltb_spec v 2147483648); lia.
Qed.

(** * flat_index *)

Lemma flat_index_loop_ok dims : forall subs off mul,
  valid_subs dims subs ->
  flat_index_loop off mul dims subs = Ok (off + mul * position dims subs).
Proof.
  induction dims as [|d dims IH]; intros subs off mul H; inversion H; subst; cbn [flat_index_loop position].
  - f_equal. lia.
  - destruct (Z.ltb_spec x 0); [lia|]. destruct (N.leb_spec d (Z.to_N x)); [lia|].
    rewrite IH by assumption. f_equal. rewrite !N.mul_add_distr_l. ring.
Qed.

Lemma flat_index_ok dims subs :
  valid_subs dims subs -> flat_index dims subs = Ok (position dims subs).
Proof. intros. unfold flat_index. rewrite flat_index_loop_ok by assumption. f_equal. lia. Qed.

Lemma flat_index_loop_err dims : forall subs off mul,
  length subs = length dims ->
  (exists s d e, flat_index_loop off mul dims subs = Err e /\ first_bad dims subs s d /\
     e = (if (s <? 0)%Z then SubNegative s else SubExceeds (Z.to_N s) d)) \/ valid_subs dims subs.
Proof.
  induction dims as [|d dims IH]; intros [|s subs] off mul L; cbn in L; try lia.
  - right. constructor.
  - cbn [flat_index_loop]. destruct (Z.ltb_spec s 0).
    + left. exists s, d, (SubNegative s). repeat split.
      * exists [], dims, [], subs. repeat split; [constructor|lia].
      * destruct (Z.ltb_spec s 0); [reflexivity|lia].
    + destruct (N.leb_spec d (Z.to_N s)).
      * left. exists s, d, (SubExceeds (Z.to_N s) d). repeat split.
        -- exists [], dims, [], subs. repeat split; [constructor|lia].
        -- destruct (Z.ltb_spec s 0); [lia|reflexivity].
      * destruct (IH subs (off + Z.to_N s * mul) (mul * d) ltac:(lia)) as [(s' & d' & e & E & B & X)|V].
        -- left. exists s', d', e. split; [assumption|]. split; [|assumption].
           destruct B as (a & b & c & f & -> & -> & ? & ?).
           exists (d :: a), b, (s :: c), f. repeat split; try assumption.
           constructor; [lia|assumption].
        -- right. constructor; [lia|assumption].
Qed.

Lemma first_bad_invalid dims subs s d : first_bad dims subs s d -> ~ valid_subs dims subs.
Proof.
  intros (a & b & c & f & -> & -> & V & B) H.
  revert c V H. induction a as [|x a IH]; intros c V H; inversion V; subst; cbn in H.
  - inversion H; subst. contradiction.
  - inversion H; subst. eapply IH; eassumption.
Qed.

Lemma flat_index_char dims subs :
  length subs = length dims ->
  (valid_subs dims subs -> flat_index dims subs = Ok (position dims subs)) /\
  (~ valid_subs dims subs ->
   exists s d, first_bad dims subs s d /\
     flat_index dims subs =
       Err (if (s <? 0)%Z then SubNegative s else SubExceeds (Z.to_N s) d)).
Proof.
  intros L. split; [apply flat_index_ok|]. intros NV.
  destruct (flat_index_loop_err dims subs 0 1 L) as [(s & d & e & E & B & ->)|V]; [|contradiction].
  exists s, d. split; assumption.
Qed.

Lemma position_lt dims : forall subs, valid_subs dims subs -> position dims subs < product dims.
Proof.
  induction dims as [|d dims IH]; intros subs H; inversion H; subst; cbn [position product].
  - lia.
  - specialize (IH _ H4). nia.
Qed.

Lemma position_inj dims : forall a b, valid_subs dims a -> valid_subs dims b ->
  position dims a = position dims b -> a = b.
Proof.
  induction dims as [|d dims IH]; intros a b Ha Hb; inversion Ha; inversion Hb; subst; cbn [position].
  - reflexivity.
  - intros E. 
    assert (Z.to_N x < d) by lia. assert (Z.to_N x0 < d) by lia.
    assert (Z.to_N x = Z.to_N x0 /\ position dims l = position dims l0) as [E1 E2].
    { assert (position dims l = position dims l0) as E2.
      { apply (f_equal (fun v => v / d)) in E.
        rewrite !(N.mul_comm d), !N.div_add, !N.div_small in E by lia. exact E. }
      split; [|assumption]. rewrite E2 in E. lia. }
    f_equal; [lia|]. apply IH; assumption.
Qed.

Lemma position_surj dims : forall i, i < product dims ->
  exists subs, valid_subs dims subs /\ position dims subs = i.
Proof.
  induction dims as [|d dims IH]; intros i H; cbn [product] in H.
  - exists []. split; [constructor|cbn; lia].
  - assert (d <> 0) by nia.
    destruct (IH (i / d)) as (subs & V & E).
    { apply N.div_lt_upper_bound; lia. }
    pose proof (N.mod_lt i d ltac:(lia)).
    exists (Z.of_N (i mod d) :: subs). split.
    + constructor; [lia|assumption].
    + cbn [position]. rewrite E, N2Z.id. pose proof (N.div_mod i d ltac:(lia)). lia.
Qed.

(** * Pointers *)

Lemma ptr_for_heap_eq i : i < 2 ^ 24 -> ptr_for_heap i = 2 ^ 64 - 1 - i.
Proof.
  intros H. unfold ptr_for_heap, i32_as_u64. rewrite (as_i32_small i).
  - change (2^64)%Z with 18446744073709551616%Z. change (2^64) with 18446744073709551616.
    change (2^24) with 16777216 in H.
    replace (- Z.of_N i - 1)%Z with (18446744073709551615 - Z.of_N i + (-1) * 18446744073709551616)%Z by lia.
    rewrite Z.mod_add, Z.mod_small by lia. lia.
  - eapply N.lt_trans; [exact H|reflexivity].
Qed.

Lemma ptr_from_heap i : i < 2 ^ 24 -> ptr_from (ptr_for_heap i) = Some (PHeap i).
Proof.
  intros H. unfold ptr_from, ptr_for_heap. rewrite (as_i32_small i) by (eapply N.lt_trans; [exact H|reflexivity]).
  change (2^24) with 16777216 in H.
  rewrite as_i32_as_u64 by (unfold in_i32, i32_min, i32_max; lia).
  destruct (Z.ltb_spec (- Z.of_N i - 1) 0); [|lia].
  replace (Z.to_N (- (- Z.of_N i - 1) - 1)) with i by lia.
  unfold u24_try_from. change (2^24) with 16777216. destruct (N.leb_spec 16777216 i); [lia|reflexivity].
Qed.

Lemma ptr_from_constant i : i < 2 ^ 24 -> ptr_from i = Some (PConstant i).
Proof.
  intros H. unfold ptr_from. rewrite as_i32_small by (eapply N.lt_trans; [exact H|reflexivity]).
  destruct (Z.ltb_spec (Z.of_N i) 0); [lia|]. rewrite N2Z.id.
  unfold u24_try_from. destruct (N.leb_spec (2^24) i); [lia|reflexivity].
Qed.

Lemma ptr_for_heap_inj i j : i < 2 ^ 24 -> j < 2 ^ 24 -> ptr_for_heap i = ptr_for_heap j -> i = j.
Proof.
  intros Hi Hj E. pose proof (ptr_from_heap i Hi) as A. rewrite E, (ptr_from_heap j Hj) in A.
  congruence.
Qed.

(** * Heap *)

Lemma nth_error_app_some {A} (l r : list A) i x : nth_error l i = Some x -> nth_error (l ++ r) i = Some x.
Proof. intros H. rewrite nth_error_app1; [assumption|]. apply nth_error_Some. congruence. Qed.

Lemma heap_ok_new m : heap_ok (heap_new m).
Proof. split; [reflexivity|]. cbn. lia. Qed.

Lemma heap_push_nonempty h d : d <> HText [] ->
  heap_push h d = if (2 ^ 24 <=? heap_len h) || (h_max h <=? heap_len h) then None
                  else Some (mkHeap (h_data h ++ [d]) (h_max h), ptr_for_heap (heap_len h)).
Proof.
  intros H. destruct d as [dims vs|[|c s]]; [| congruence |]; cbn [heap_push];
  unfold u24_try_from; destruct (2 ^ 24 <=? heap_len h); reflexivity.
Qed.

Lemma heap_push_ok h d h' p : heap_ok h -> heap_push h d = Some (h', p) -> heap_ok h'.
Proof.
  intros [H0 HL] E. destruct (match d with HText [] => true | _ => false end) eqn:D.
  - destruct d as [|[|]]; try discriminate. cbn in E. injection E as <- <-. split; assumption.
  - assert (d <> HText []) by (destruct d as [|[|]]; congruence).
    rewrite heap_push_nonempty in E by assumption.
    destruct (N.leb_spec (2^24) (heap_len h)); [discriminate|].
    destruct (N.leb_spec (h_max h) (heap_len h)); [discriminate|]. cbn in E. injection E as <- <-.
    split.
    + cbn [h_data]. apply nth_error_app_some. assumption.
    + unfold heap_len in *. cbn. rewrite app_length. cbn [length]. change (2^24) with 16777216 in *. lia.
Qed.

Lemma heap_len_new_entry h d :
  nth_error (h_data h ++ [d]) (N.to_nat (heap_len h)) = Some d.
Proof.
  unfold heap_len. rewrite Nat2N.id, nth_error_app2 by lia. now rewrite Nat.sub_diag.
Qed.

Lemma heap_push_char h d :
  heap_ok h ->
  match heap_push h d with
  | Some (h', p) =>
      h_max h' = h_max h /\
      (forall i e, heap_get h i = Some e -> heap_get h' i = Some e) /\
      (exists i, ptr_from p = Some (PHeap i) /\ heap_get h' i = Some d /\
         (d <> HText [] -> heap_get h i = None)) /\
      (d = HText [] -> h' = h) /\ (d <> HText [] -> heap_len h' = heap_len h + 1)
  | None => d <> HText [] /\ N.min (2 ^ 24) (h_max h) <= heap_len h
  end.
Proof.
  intros [H0 HL]. destruct (match d with HText [] => true | _ => false end) eqn:D.
  - destruct d as [|[|]]; try discriminate. cbn [heap_push].
    repeat split; try congruence; auto.
    exists 0. split; [reflexivity|]. split; [exact H0|congruence].
  - assert (ND : d <> HText []) by (destruct d as [|[|]]; congruence).
    rewrite heap_push_nonempty by assumption.
    destruct (N.leb_spec (2^24) (heap_len h)) as [A|A].
    { cbn. split; [assumption|]. change (2^24) with 16777216 in *. lia. }
    destruct (N.leb_spec (h_max h) (heap_len h)) as [B|B].
    { cbn. split; [assumption|]. change (2^24) with 16777216 in *. lia. }
    cbn [orb]. repeat split; try congruence.
    + intros i e G. unfold heap_get in *. cbn. apply nth_error_app_some. assumption.
    + exists (heap_len h). split; [apply ptr_from_heap; assumption|]. split.
      * unfold heap_get. cbn. apply heap_len_new_entry.
      * intros _. unfold heap_get, heap_len. rewrite Nat2N.id. apply nth_error_None. lia.
    + intros _. unfold heap_len. cbn. rewrite app_length. cbn. lia.
Qed.

Lemma push_all_char ds : forall h h' ps,
  heap_ok h -> push_all h ds = Some (h', ps) ->
  heap_ok h' /\
  (forall i e, heap_get h i = Some e -> heap_get h' i = Some e) /\
  Forall2 (fun d p => exists i, ptr_from p = Some (PHeap i) /\ heap_get h' i = Some d) ds ps.
Proof.
  induction ds as [|d ds IH]; intros h h' ps K E; cbn in E.
  - injection E as <- <-. repeat split; try apply K; auto.
  - destruct (heap_push h d) as [[h1 p]|] eqn:P; [|discriminate].
    destruct (push_all h1 ds) as [[h2 ps']|] eqn:Q; [|discriminate]. injection E as <- <-.
    pose proof (heap_push_char h d K) as C. rewrite P in C.
    destruct C as (_ & Keep & (i & Pi & Gi & _) & _).
    destruct (IH h1 h2 ps' (heap_push_ok _ _ _ _ K P) Q) as (K' & Keep' & F).
    split; [assumption|]. split; [auto|]. constructor; [|assumption]. eauto.
Qed.

Lemma push_all_distinct ds : forall h h' ps i j di dj pi pj,
  heap_ok h -> push_all h ds = Some (h', ps) -> (i < j)%nat ->
  nth_error ds i = Some di -> nth_error ds j = Some dj ->
  nth_error ps i = Some pi -> nth_error ps j = Some pj ->
  dj <> HText [] -> pi <> pj.
Proof.
  induction ds as [|d ds IH]; intros h h' ps i j di dj pi pj K E L Di Dj Pi Pj N; cbn in E.
  - destruct i; discriminate.
  - destruct (heap_push h d) as [[h1 p]|] eqn:P; [|discriminate].
    destruct (push_all h1 ds) as [[h2 ps']|] eqn:Q; [|discriminate]. injection E as <- <-.
    pose proof (heap_push_ok _ _ _ _ K P) as K1.
    destruct j as [|j]; [lia|]. cbn in Dj, Pj. destruct i as [|i].
    + cbn in Di, Pi. injection Di as <-. injection Pi as <-.
      pose proof (heap_push_char h d K) as C. rewrite P in C. destruct C as (_ & _ & (x & Px & Gx & _) & _).
      clear IH L P K.
      revert h1 K1 ps' j Q Dj Pj Gx. induction ds as [|e ds IH]; intros h1 K1 ps' j Q Dj Pj Gx; [destruct j; discriminate|].
      cbn in Q. destruct (heap_push h1 e) as [[h3 q]|] eqn:P3; [|discriminate].
      destruct (push_all h3 ds) as [[h4 qs]|] eqn:Q3; [|discriminate]. injection Q as <- <-.
      pose proof (heap_push_char h1 e K1) as C. rewrite P3 in C.
      destruct C as (_ & Keep & (y & Py & Gy & Fy) & _).
      destruct j as [|j].
      * cbn in Dj, Pj. injection Dj as ->. injection Pj as ->. intros ->.
        rewrite Px in Py. injection Py as ->. rewrite (Fy N) in Gx. discriminate.
      * cbn in Dj, Pj. eapply (IH h3); eauto. eapply heap_push_ok; eassumption.
    + cbn in Di, Pi. apply (IH h1 h2 ps' i j di dj pi pj); try assumption. lia.
Qed.

(** Strings stay readable through any pointer while the heap grows. *)
Lemma resolve_push h d h' p v cs s :
  heap_ok h -> heap_push h d = Some (h', p) ->
  deref_text v cs h = Some s -> deref_text v cs h' = Some s.
Proof.
  intros K P. unfold deref_text. destruct (ptr_from v) as [[i|i]|]; [auto| |auto].
  unfold resolve_string. destruct (heap_get h i) as [[|t]|] eqn:G; try discriminate.
  pose proof (heap_push_char h d K) as C. rewrite P in C. destruct C as (_ & Keep & _).
  rewrite (Keep _ _ G). auto.
Qed.

Lemma resolve_append v cs cs' h s :
  deref_text v cs h = Some s -> deref_text v (cs ++ cs') h = Some s.
Proof.
  unfold deref_text. destruct (ptr_from v) as [[i|i]|]; [|auto|auto].
  unfold resolve_string. destruct (nth_error cs (N.to_nat i)) as [[]|] eqn:G; try discriminate.
  rewrite (nth_error_app_some _ cs' _ _ G). auto.
Qed.

Lemma heap_push_text_deref h s h' p cs :
  heap_ok h -> heap_push h (HText s) = Some (h', p) -> deref_text p cs h' = Some s.
Proof.
  intros K P. pose proof (heap_push_char h (HText s) K) as C. rewrite P in C.
  destruct C as (_ & _ & (i & Pi & Gi & _) & _). unfold deref_text. rewrite Pi. cbn. now rewrite Gi.
Qed.

Lemma cdatum_eqb_eq a b : cdatum_eqb a b = true <-> a = b.
Proof.
  destruct a, b; cbn; split; intros H; try discriminate; try congruence.
  - apply Bool.eqb_prop in H. congruence.
  - injection H as ->. apply Bool.eqb_reflx.
  - apply N.eqb_eq in H. congruence.
  - injection H as ->. apply N.eqb_refl.
  - apply Z.eqb_eq in H. congruence.
  - injection H as ->. apply Z.eqb_refl.
  - apply ustr_eqb_eq in H. congruence.
  - injection H as ->. apply ustr_eqb_refl.
Qed.
