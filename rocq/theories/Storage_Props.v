(** Storage: C33 to C36. *)
From Coq Require Import String.
From Verif Require Import Base Storage_Model Storage_Spec Storage_Proofs.
Local Open Scope string_scope.
Local Open Scope list_scope.
Local Open Scope N_scope.

(** Upper and lower case in theorems are any tables, with the facts of [upper_ok] where they
    matter; here are tables for the examples. *)
Definition uc_ (c : N) : list N := [upper1 c].
Definition lc_ (c : N) : list N := [lower1 c].
Lemma uc_ok : upper_ok uc_.
Proof.
  assert (A : forall c, upper1 c = c \/ (97 <= c <= 122 /\ upper1 c = c - 32)).
  { intros c. unfold upper1. destruct ((97 <=? c) && (c <=? 122)) eqn:E; [|auto].
    apply andb_true_iff in E as [E1 E2]. apply N.leb_le in E1, E2. auto. }
  constructor; unfold uc_.
  - discriminate.
  - reflexivity.
  - intros c c' [<-|[]]. f_equal. destruct (A c) as [E|[E1 E2]]; [congruence|].
    destruct (A (upper1 c)) as [E|[E3 E4]]; [exact E|]. lia.
  - intros c c' [<-|[]] L. destruct (A c) as [E|[E1 E2]]; lia.
Qed.

(** * C33 *)

Theorem C33_accepted_locations : forall uc st raw,
  ((exists t, make_canonical uc st raw = Ok t) <-> exists d n, location_names raw d n) /\
  (forall e, make_canonical uc st raw = Err e -> e = InvalidInput).
Proof.
  intros uc st raw. unfold make_canonical. split; [split|].
  - intros (t & H). destruct (location_new uc raw) as [l|e] eqn:E; [|discriminate]. exact (location_inv uc raw l E).
  - intros (d & n & L). destruct (location_ok uc raw d n L) as [E _]. rewrite E. eauto.
  - intros e H. destruct (location_new uc raw) as [l|e'] eqn:E; [discriminate|]. apply location_err in E. congruence.
Qed.
Print Assumptions C33_accepted_locations.

(** A location means one thing. *)
Theorem C33_unambiguous : forall raw d n d' n', location_names raw d n -> location_names raw d' n' -> d = d' /\ n = n'.
Proof. exact (location_names_fun (fun c => [c])). Qed.
Print Assumptions C33_unambiguous.

(** The canonical form of a location means the same with the drive made explicit, and is its own
    canonical form.  The current drive is that of any reachable state. *)
Lemma current_name : forall uc lc st, upper_ok uc -> reachable uc lc st ->
  drive_name (st_current st) /\ flat_map uc (st_current st) = st_current st.
Proof.
  intros uc lc st U R. induction R as [|st o st' R IH O P].
  - split.
    + split; [discriminate|]. intros c I. vm_compute in I. repeat (destruct I as [<-|I]; [repeat split; discriminate|]). destruct I.
    + cbn [storage_default st_current]. unfold u. cbn. rewrite !(uo_ascii _ U) by lia. reflexivity.
  - assert (G : st_current st' = st_current st \/ exists d, drive_name d /\ st_current st' = flat_map uc d).
    { destruct o as [name uri|name|raw|raw c|raw|src dest|raw a r|scheme f]; cbn [perform] in P.
      - left. unfold mount in P. destruct (split_uri uri) as [[scheme path]|e]; [|discriminate].
        destruct (hm_get (flat_map lc scheme) (st_factories st)) as [f|]; [|discriminate].
        destruct (f path) as [d|e]; [|discriminate]. unfold attach in P.
        destruct (drive_key uc name) as [k|e]; [|discriminate]. destruct (hm_get k (st_drives st)); [discriminate|].
        injection P as <-. reflexivity.
      - left. unfold unmount in P. destruct (drive_key uc name) as [k|e]; [|discriminate].
        destruct (hm_get k (st_drives st)); [|discriminate]. destruct (ustr_eqb (st_current st) k); [discriminate|].
        destruct (Nat.ltb 1 _); [|discriminate]. injection P as <-. reflexivity.
      - unfold cd in P. destruct (location_new uc raw) as [l|e] eqn:E; [|discriminate].
        destruct (leaf_name l); [discriminate|]. destruct (l_drive l) as [k|] eqn:D; [|injection P as <-; left; reflexivity].
        destruct (hm_get k (st_drives st)); [|discriminate]. injection P as <-. right.
        destruct (location_inv _ _ _ E) as (d & n & L). destruct (location_ok uc raw d n L) as [E' _].
        rewrite E' in E. injection E as <-. cbn [l_drive] in D. destruct d as [d|]; [|discriminate]. injection D as <-.
        exists d. split; [inversion L; assumption|reflexivity].
      - left. unfold put, put_location in P. destruct (location_new uc raw) as [l|e]; [|discriminate].
        unfold changing in P. destruct (on_file _ _ _) as [[d|e]|]; try discriminate. injection P as <-.
        unfold with_drive. destruct (hm_get _ _) as [[? ?]|]; reflexivity.
      - left. unfold delete in P. destruct (location_new uc raw) as [l|e]; [|discriminate].
        unfold changing in P. destruct (on_file _ _ _) as [[d|e]|]; try discriminate. injection P as <-.
        unfold with_drive. destruct (hm_get _ _) as [[? ?]|]; reflexivity.
      - left. unfold copy in P. destruct (location_new uc src) as [l|e]; [|discriminate].
        destruct (leaf_name l); [|discriminate]. destruct (location_new uc dest); [|discriminate].
        destruct (get_location st l) as [[c|e]|]; try discriminate. unfold put_location, changing in P.
        match type of P with match ?x with _ => _ end = _ => destruct x as [[d|e]|]; try discriminate end. injection P as <-.
        unfold with_drive. match goal with |- context [hm_get ?a ?b] => destruct (hm_get a b) as [[? ?]|] end; reflexivity.
      - left. unfold update_acls in P. destruct (location_new uc raw) as [l|e]; [|discriminate].
        unfold changing in P. destruct (on_file _ _ _) as [[d|e]|]; try discriminate. injection P as <-.
        unfold with_drive. destruct (hm_get _ _) as [[? ?]|]; reflexivity.
      - left. injection P as <-. reflexivity. }
    destruct G as [->|(d & D & ->)]; [exact IH|]. exact (upper_drive uc U d D).
Qed.

Theorem C33_canonical_form : forall uc lc st raw t d n, upper_ok uc -> reachable uc lc st ->
  make_canonical uc st raw = Ok t -> location_names raw d n ->
  location_names t (Some (at_drive uc st d)) n /\ make_canonical uc st t = Ok t.
Proof.
  intros uc lc st raw t d n U R H L. unfold make_canonical in H. destruct (location_ok uc raw d n L) as [E P].
  rewrite E in H. unfold in_current in H. cbn [l_drive l_path] in H. pose proof (kept_names _ _ P) as P'.
  destruct (current_name uc lc st U R) as [C1 C2].
  assert (D : drive_name (at_drive uc st d) /\ flat_map uc (at_drive uc st d) = at_drive uc st d).
  { destruct d as [d|]; cbn [at_drive]; [|auto]. apply (upper_drive uc U). inversion L; assumption. }
  assert (T : t = at_drive uc st d ++ 58 :: kept (path_of raw)) by (destruct d; cbn [option_map] in H; injection H as <-; reflexivity).
  subst t. destruct D as [D1 D2]. assert (LN := LN_drive _ _ _ D1 P'). split; [exact LN|].
  unfold make_canonical. destruct (location_ok uc _ _ _ LN) as [E' _]. rewrite E'. unfold in_current. cbn [option_map l_drive location_text l_path].
  rewrite D2. do 2 f_equal. unfold path_of at 1. rewrite split_sep, split_none.
  - cbn [last]. rewrite kept_kept. reflexivity.
  - exact (path_no_colon _ _ P').
  - intros I. destruct D1 as [_ D1]. destruct (D1 _ I). contradiction.
Qed.
Print Assumptions C33_canonical_form.

(** But two names of the same file have different canonical forms. *)
Theorem C33_one_canonical_form_refuted : exists a b k n ta tb,
  names_file uc_ storage_default a k n /\ names_file uc_ storage_default b k n /\
  make_canonical uc_ storage_default a = Ok ta /\ make_canonical uc_ storage_default b = Ok tb /\ ta <> tb.
Proof.
  assert (F : file_name (u "a")).
  { split; [discriminate|]. split; [|split; discriminate]. intros c [<-|[]]. repeat split; discriminate. }
  exists (u "a"), (u "/a"), (u "MEMORY"), (u "a"), (u "MEMORY:a"), (u "MEMORY:/a").
  split; [exists None; split; [constructor; constructor; exact F|reflexivity]|].
  split; [exists None; split; [constructor; constructor; exact F|reflexivity]|].
  split; [reflexivity|]. split; [reflexivity|discriminate].
Qed.
Print Assumptions C33_one_canonical_form_refuted.

(** Printing a location and parsing it gives it back. *)
Theorem C33_print_parse : forall uc, upper_ok uc -> forall raw l,
  location_new uc raw = Ok l -> location_new uc (location_text l) = Ok l.
Proof. exact text_round_trip. Qed.
Print Assumptions C33_print_parse.

(** Drive names that differ only in the case of ASCII letters are the same drive. *)
Theorem C33_drive_case : forall uc a b p, upper_ok uc -> map lower1 a = map lower1 b -> drive_name a ->
  location_new uc (a ++ 58 :: p) = location_new uc (b ++ 58 :: p).
Proof.
  intros uc a b p U E D.
  assert (G : forall x y, lower1 x = lower1 y -> uc x = uc y /\ (x = y \/ (65 <= x <= 122 /\ 65 <= y <= 122 /\ (97 <= x \/ x <= 90) /\ (97 <= y \/ y <= 90)))).
  { intros x y. unfold lower1. destruct ((65 <=? x) && (x <=? 90)) eqn:X; destruct ((65 <=? y) && (y <=? 90)) eqn:Y; intros Q;
      repeat match goal with
      | H : _ && _ = true |- _ => apply andb_true_iff in H as [?H ?H]; apply N.leb_le in H; apply N.leb_le in H0
      end.
    - assert (x = y) by lia. subst. auto.
    - apply andb_true_iff in X as [X1 X2]. apply N.leb_le in X1, X2. split; [|right; lia].
      rewrite !(uo_ascii _ U) by lia. f_equal. unfold upper1.
      replace ((97 <=? x) && (x <=? 122)) with false by (symmetry; apply andb_false_iff; left; apply N.leb_gt; lia).
      replace ((97 <=? y) && (y <=? 122)) with true by (symmetry; apply andb_true_iff; split; apply N.leb_le; lia). lia.
    - apply andb_true_iff in Y as [Y1 Y2]. apply N.leb_le in Y1, Y2. split; [|right; lia].
      rewrite !(uo_ascii _ U) by lia. f_equal. unfold upper1.
      replace ((97 <=? y) && (y <=? 122)) with false by (symmetry; apply andb_false_iff; left; apply N.leb_gt; lia).
      replace ((97 <=? x) && (x <=? 122)) with true by (symmetry; apply andb_true_iff; split; apply N.leb_le; lia). lia.
    - subst. auto. }
  assert (M : drive_name b /\ flat_map uc a = flat_map uc b).
  { destruct D as [D1 D2]. assert (M : (forall c, In c b -> c <> 58 /\ c <> 92 /\ c <> 47 /\ c <> 46) /\ flat_map uc a = flat_map uc b).
    { clear D1. revert b E. induction a as [|x a IH]; intros [|y b] E; try discriminate E; [split; [intros c []|reflexivity]|].
      cbn [map] in E. injection E as E1 E2. destruct (IH (fun c I => D2 c (or_intror I)) b E2) as [I1 I2]. destruct (G x y E1) as [U1 U2]. split.
      - intros c [<-|I]; [|auto]. destruct U2 as [<-|U2]; [apply D2; left; reflexivity|]. repeat split; lia.
      - cbn [flat_map]. congruence. }
    destruct M as [M1 M2]. split; [|exact M2]. split; [|exact M1]. intros ->. destruct a; [contradiction|discriminate E]. }
  destruct M as [B M]. assert (CA : ~ In 58 a) by (intros I; destruct D as [_ D]; destruct (D _ I); contradiction).
  assert (CB : ~ In 58 b) by (intros I; destruct B as [_ B]; destruct (B _ I); contradiction).
  unfold location_new. change colon with 58. rewrite (split_sep a p CA), (split_sep b p CB).
  rewrite (drive_key_ok uc a D), (drive_key_ok uc b B), M.
  pose proof (split_nonempty p). destruct (split_on 58 p); [contradiction|reflexivity].
Qed.
Print Assumptions C33_drive_case.

(** Names of files stay within their drive: what the drive gets is a plain name. *)
Theorem C33_no_escape : forall uc st raw k n, names_file uc st raw k n ->
  n <> [] /\ ~ In 47 n /\ ~ In 92 n /\ ~ In 58 n /\ n <> u "." /\ n <> u "..".
Proof.
  intros uc st raw k n H. destruct (names_file_name uc st raw k n H) as (A & B & C & D).
  repeat split; auto; intros I; destruct (B _ I) as (? & ? & ?); contradiction.
Qed.
Print Assumptions C33_no_escape.

(** The extension that LOAD and SAVE add. *)
Theorem C33_default_extension : forall uc lc st raw ext d n, upper_ok uc -> reachable uc lc st ->
  location_names raw d n -> (forall c, In c ext -> c <> 58 /\ c <> 92 /\ c <> 47) ->
  (n = None -> make_canonical_with_extension uc st raw ext = Err NotFound) /\
  (forall f, n = Some f -> exists t,
     make_canonical_with_extension uc st raw ext = Ok t /\
     location_names t (Some (at_drive uc st d))
       (Some (if existsb (N.eqb 46) f then f
              else f ++ [46] ++ (if existsb (fun c => (97 <=? c) && (c <=? 122)) f then ext else map upper1 ext)))).
Proof.
  intros uc lc st raw ext d n U R L X. unfold make_canonical_with_extension. destruct (location_ok uc raw d n L) as [E P]. rewrite E.
  destruct (current_name uc lc st U R) as [C1 C2].
  assert (D : drive_name (at_drive uc st d)).
  { destruct d as [d|]; cbn [at_drive]; [|auto]. apply (upper_drive uc U). inversion L; assumption. }
  assert (IC : in_current st (mkLocation (option_map (flat_map uc) d) (kept (path_of raw))) =
    mkLocation (Some (at_drive uc st d)) (kept (path_of raw))) by (destruct d; reflexivity).
  rewrite IC, (path_leaf _ _ _ P). split; [intros ->; reflexivity|]. intros f ->. eexists. split; [reflexivity|].
  unfold set_extension. rewrite (path_leaf _ _ _ P).
  assert (F : file_name f) by (inversion P; assumption). destruct f as [|c0 f0] eqn:EF; [destruct F; contradiction|]. rewrite <- EF in *. clear EF c0 f0.
  assert (DT : existsb (fun c => c =? dot) f = existsb (N.eqb 46) f).
  { unfold dot. clear. induction f as [|c f IH]; [reflexivity|]. cbn [existsb]. rewrite IH, N.eqb_sym. reflexivity. }
  rewrite DT. destruct (existsb (N.eqb 46) f) eqn:HD.
  - unfold location_text. cbn [l_drive l_path]. apply LN_drive; [exact D|]. apply kept_names. exact P.
  - unfold location_text. cbn [l_drive l_path]. apply LN_drive; [exact D|].
    set (e := if negb (existsb is_ascii_lowercase f) then ascii_upper ext else ext).
    assert (EE : (if existsb (fun c => (97 <=? c) && (c <=? 122)) f then ext else map upper1 ext) = e).
    { unfold e. change (fun c => (97 <=? c) && (c <=? 122)) with is_ascii_lowercase.
      destruct (existsb is_ascii_lowercase f); reflexivity. }
    rewrite EE. assert (XE : forall c, In c e -> c <> 58 /\ c <> 92 /\ c <> 47).
    { intros c I. unfold e in I. destruct (negb (existsb is_ascii_lowercase f)); [|auto].
      apply in_map_iff in I as (c' & <- & I). destruct (X c' I) as (A1 & A2 & A3). unfold upper1.
      destruct ((97 <=? c') && (c' <=? 122)) eqn:T; [|auto]. apply andb_true_iff in T as [T1 T2]. apply N.leb_le in T1, T2. lia. }
    assert (FN : file_name (f ++ [46] ++ e)).
    { destruct F as (F1 & F2 & F3 & F4). assert (ND : forall c, In c f -> c <> 46).
      { intros c I ->. assert (K : existsb (N.eqb 46) f = true) by (apply existsb_exists; exists 46; split; [exact I|reflexivity]). congruence. }
      split; [destruct f; [contradiction|discriminate]|]. split.
      - intros c I. apply in_app_or in I as [I|[<-|I]]; [auto|repeat split; discriminate|auto].
      - destruct f as [|c f]; [contradiction|]. assert (NC : c <> 46) by (apply ND; left; reflexivity).
        split; cbn [app]; congruence. }
    inversion P as [EP|EP|q Fq EP EQ|q Fq EP EQ]; subst.
    + replace (kept (path_of raw)) with (path_of raw) by (destruct (path_of raw); [destruct F; contradiction|reflexivity]).
      apply PN_file. exact FN.
    + cbn [kept app]. apply PN_rooted. exact FN.
Qed.
Print Assumptions C33_default_extension.

(** Mount URIs: a scheme, the first "://" and the rest. *)
Definition css_free (s : ustr) : Prop := forall a b, s <> a ++ [58; 47; 47] ++ b.
Theorem C33_mount_uri : forall uri scheme path,
  split_uri uri = Ok (scheme, path) <->
  uri = scheme ++ [58; 47; 47] ++ path /\ scheme <> [] /\ css_free (scheme ++ [58; 47]).
Proof.
  assert (G : forall s before scheme path, find_css before s = Some (scheme, path) <->
    exists m, scheme = rev before ++ m /\ s = m ++ [58; 47; 47] ++ path /\ css_free (m ++ [58; 47])).
  { induction s as [|c s IH]; intros before scheme path.
    - cbn [find_css]. split; [discriminate|]. intros (m & _ & E & _). destruct m; cbn [app] in E; discriminate E.
    - cbn [find_css]. destruct s as [|c2 [|c3 rest]].
      + split; [discriminate|]. intros (m & _ & E & _). destruct m as [|x [|y m]]; cbn [app] in E; discriminate E.
      + split; [discriminate|]. intros (m & _ & E & _). destruct m as [|x [|y [|z m]]]; cbn [app] in E; discriminate E.
      + unfold colon, slash. destruct ((c =? 58) && (c2 =? 47) && (c3 =? 47)) eqn:E.
        * apply andb_true_iff in E as [E E3]. apply andb_true_iff in E as [E1 E2]. apply N.eqb_eq in E1, E2, E3. subst.
          split.
          -- intros H. injection H as <- <-. exists []. rewrite app_nil_r. split; [reflexivity|]. split; [reflexivity|].
             intros a b K. apply (f_equal (@List.length N)) in K. rewrite !app_length in K. cbn [List.length] in K. lia.
          -- intros (m & -> & E & C). destruct m as [|x m]; [rewrite app_nil_r; injection E as ->; reflexivity|].
             exfalso. injection E as <- E. destruct m as [|y m]; [discriminate E|]. injection E as <- E.
             destruct m as [|z m]; [discriminate E|]. injection E as <- E. apply (C [] (m ++ [58; 47])). reflexivity.
        * rewrite IH. split.
          -- intros (m & -> & E2 & C). exists (c :: m). split; [cbn [rev]; rewrite <- app_assoc; reflexivity|].
             split; [rewrite E2; reflexivity|]. intros a b K. destruct a as [|x a].
             ++ cbn [app] in K. injection K as -> K.
                assert (K2 : m ++ [58; 47] = 47 :: 47 :: b) by exact K.
                assert (Q : c2 :: c3 :: rest = 47 :: 47 :: (match m with [] => [] | [_] => [] | _ => [] end) \/ True) by auto.
                destruct m as [|y [|z m]]; [discriminate K2|discriminate K2|].
                injection K2 as -> -> K2. injection E2 as -> -> E2. discriminate E.
             ++ cbn [app] in K. injection K as -> K. exact (C a b K).
          -- intros (m & -> & E2 & C). destruct m as [|x m].
             ++ injection E2 as -> -> -> ->. discriminate E.
             ++ injection E2 as <- E2. exists m. split; [cbn [rev]; rewrite <- app_assoc; reflexivity|]. split; [exact E2|].
                intros a b K. apply (C (c :: a) b). cbn [app]. rewrite K. reflexivity. }
  intros uri scheme path. unfold split_uri. specialize (G uri [] ). destruct (find_css [] uri) as [[s p]|].
  - destruct (proj1 (G s p) eq_refl) as (m & E1 & E2 & E3). cbn [rev app] in E1. subst m. split.
    + intros H. destruct s as [|c s]; [discriminate|]. injection H as <- <-. split; [exact E2|]. split; [discriminate|exact E3].
    + intros (H1 & H2 & H3). assert (Some (s, p) = Some (scheme, path)) by (apply G; exists scheme; auto).
      injection H as -> ->. destruct scheme; [contradiction|reflexivity].
  - split; [discriminate|]. intros (H1 & H2 & H3). assert (None = Some (scheme, path)) by (apply G; exists scheme; auto). discriminate.
Qed.
Print Assumptions C33_mount_uri.

Example C33_case :
  make_canonical_with_extension uc_ storage_default (u "cloud:Game") (u "bas") = Ok (u "CLOUD:Game.bas") /\
  make_canonical_with_extension uc_ storage_default (u "/GAME") (u "bas") = Ok (u "MEMORY:/GAME.BAS") /\
  make_canonical uc_ storage_default (u "../x") = Err InvalidInput /\
  split_uri (u "memory://") = Ok (u "memory", []).
Proof. repeat split. Qed.

(** * C34 *)

Theorem C34_current_drive_mounted : forall uc lc st, reachable uc lc st ->
  exists uri, In (st_current st, uri) (mounted st).
Proof.
  intros uc lc st R. pose proof (reachable_ok uc lc st R) as W. pose proof (so_current _ W) as C.
  destruct (hm_get (st_current st) (st_drives st)) as [[uri d]|] eqn:E; [|contradiction]. exists uri.
  unfold mounted. apply (listing_in _ _ fst (st_drives st)); [exact (so_drives _ W)|]. exists (uri, d). auto.
Qed.
Print Assumptions C34_current_drive_mounted.

(** No operation panics, in any reachable state. *)
Theorem C34_no_panic : forall uc lc st o, reachable uc lc st -> perform uc lc o st <> None.
Proof. intros uc lc st o R. exact (perform_total uc lc o st (reachable_ok uc lc st R)). Qed.
Print Assumptions C34_no_panic.

Lemma unmount_is : forall uc lc st name, reachable uc lc st ->
  unmount uc name st = Some (
    if drive_name_valid name then
      match hm_get (flat_map uc name) (mounted st) with
      | None => Err NotFound
      | Some _ =>
          if ustr_eqb (st_current st) (flat_map uc name) then Err AlreadyExists
          else Ok (mkStorage (st_factories st) (hm_remove (flat_map uc name) (st_drives st)) (st_current st))
      end
    else Err InvalidInput).
Proof.
  intros uc lc st name R. pose proof (reachable_ok uc lc st R) as W.
  assert (P := perform_total uc lc (OUnmount name) st W). cbn [perform] in P.
  unfold unmount, drive_key in *. destruct (drive_name_valid name); cbn [negb] in *; [|reflexivity].
  assert (M : hm_get (flat_map uc name) (mounted st) = option_map fst (hm_get (flat_map uc name) (st_drives st))).
  { set (k := flat_map uc name). destruct (hm_get k (st_drives st)) as [[uri d]|] eqn:E; cbn [option_map fst].
    - apply hm_in_get; [apply increasing_nodup; apply (listing_increasing _ _ fst)|]. unfold mounted.
      apply (listing_in _ _ fst (st_drives st)); [exact (so_drives _ W)|]. exists (uri, d). auto.
    - destruct (hm_get k (mounted st)) as [uri|] eqn:E'; [|reflexivity]. exfalso. apply hm_get_in in E'.
      apply (listing_in _ _ fst (st_drives st)) in E' as (v & Q & _); [congruence|exact (so_drives _ W)]. }
  rewrite M. destruct (hm_get (flat_map uc name) (st_drives st)) as [[uri d]|]; cbn [option_map]; [|reflexivity].
  destruct (ustr_eqb (st_current st) (flat_map uc name)); [reflexivity|].
  destruct (Nat.ltb 1 (length (st_drives st))); [reflexivity|contradiction].
Qed.

(** What each operation does to the mounted drives and the current one. *)
Theorem C34_unmount : forall uc lc st name, reachable uc lc st ->
  (~ drive_name name -> unmount uc name st = Some (Err InvalidInput)) /\
  (drive_name name -> (forall uri, ~ In (flat_map uc name, uri) (mounted st)) -> unmount uc name st = Some (Err NotFound)) /\
  (drive_name name -> flat_map uc name = st_current st -> unmount uc name st = Some (Err AlreadyExists)) /\
  (forall uri, drive_name name -> In (flat_map uc name, uri) (mounted st) -> flat_map uc name <> st_current st ->
     exists st', unmount uc name st = Some (Ok st')).
Proof.
  intros uc lc st name R. rewrite (unmount_is uc lc st name R). split; [|split; [|split]].
  - intros D. destruct (drive_name_valid name) eqn:E; [apply drive_valid_iff in E; contradiction|reflexivity].
  - intros D NI. apply drive_valid_iff in D. rewrite D. destruct (hm_get _ (mounted st)) as [uri|] eqn:E; [|reflexivity].
    apply hm_get_in in E. exfalso. exact (NI uri E).
  - intros D C. apply drive_valid_iff in D. rewrite D, C, ustr_eqb_refl.
    destruct (C34_current_drive_mounted uc lc st R) as (uri & I).
    rewrite (hm_in_get _ _ uri (mounted st)); [reflexivity|apply increasing_nodup; apply (listing_increasing _ _ fst)|exact I].
  - intros uri D I C. apply drive_valid_iff in D. rewrite D.
    rewrite (hm_in_get _ _ uri (mounted st)); [|apply increasing_nodup; apply (listing_increasing _ _ fst)|exact I].
    replace (ustr_eqb (st_current st) (flat_map uc name)) with false by (symmetry; apply ustr_eqb_neq; congruence). eauto.
Qed.
Print Assumptions C34_unmount.

Theorem C34_unmount_effect : forall uc lc st name st', reachable uc lc st -> unmount uc name st = Some (Ok st') ->
  st_current st' = st_current st /\
  forall k uri, In (k, uri) (mounted st') <-> In (k, uri) (mounted st) /\ k <> flat_map uc name.
Proof.
  intros uc lc st name st' R H. pose proof (reachable_ok uc lc st R) as W. rewrite (unmount_is uc lc st name R) in H.
  destruct (drive_name_valid name); [|discriminate]. destruct (hm_get _ (mounted st)); [|discriminate].
  destruct (ustr_eqb _ _); [discriminate|]. injection H as <-. split; [reflexivity|]. intros k uri. unfold mounted. cbn [st_drives].
  rewrite !(listing_in _ _ fst); [|exact (so_drives _ W)|apply hm_remove_nodup; exact (so_drives _ W)].
  rewrite hm_get_remove. destruct (ustr_eqb k (flat_map uc name)) eqn:E.
  - apply ustr_eqb_eq in E. split; [intros (v & Q & _); discriminate|intros [_ Q]; contradiction].
  - apply ustr_eqb_neq in E. split; [intros Q; split; assumption|intros [Q _]; exact Q].
Qed.
Print Assumptions C34_unmount_effect.

Theorem C34_mount : forall uc lc st name uri, reachable uc lc st ->
  (forall st', mount uc lc name uri st = Ok st' ->
     drive_name name /\ (forall w, ~ In (flat_map uc name, w) (mounted st)) /\
     st_current st' = st_current st /\
     forall k w, In (k, w) (mounted st') <-> (k = flat_map uc name /\ w = uri) \/ In (k, w) (mounted st)) /\
  (forall w, In (flat_map uc name, w) (mounted st) -> forall st', mount uc lc name uri st <> Ok st').
Proof.
  intros uc lc st name uri R. pose proof (reachable_ok uc lc st R) as W.
  assert (M : forall k w, In (k, w) (mounted st) <-> exists v, hm_get k (st_drives st) = Some v /\ w = fst v)
    by (intros k w; apply (listing_in _ _ fst); exact (so_drives _ W)).
  assert (G : forall st', mount uc lc name uri st = Ok st' -> exists d, drive_name name /\ hm_get (flat_map uc name) (st_drives st) = None /\
     st' = with_drives (hm_insert (flat_map uc name) (uri, d) (st_drives st)) st).
  { intros st' H. unfold mount in H. destruct (split_uri uri) as [[scheme path]|]; [|discriminate].
    destruct (hm_get _ (st_factories st)) as [f|]; [|discriminate]. destruct (f path) as [d|]; [|discriminate].
    unfold attach in H. destruct (drive_key uc name) as [k|] eqn:K; [|discriminate]. apply drive_key_inv in K as [K ->].
    destruct (hm_get _ (st_drives st)) eqn:E; [discriminate|]. exists d. split; [exact K|]. split; [reflexivity|congruence]. }
  split.
  - intros st' H. destruct (G st' H) as (d & A & B & ->). split; [exact A|]. split.
    + intros w I. apply M in I as (v & Q & _). congruence.
    + split; [reflexivity|]. intros k w. rewrite M. unfold mounted. cbn [with_drives st_drives].
      rewrite (listing_in _ _ fst) by (apply hm_insert_nodup; exact (so_drives _ W)). rewrite hm_get_insert.
      destruct (ustr_eqb k (flat_map uc name)) eqn:E.
      * apply ustr_eqb_eq in E as ->. split; [intros (v & Q & ->); injection Q as <-; left; auto|].
        intros [[_ ->]|(v & Q & _)]; [exists (uri, d); auto|congruence].
      * apply ustr_eqb_neq in E. split; [auto|]. intros [[Q _]|Q]; [contradiction|exact Q].
  - intros w I st' H. destruct (G st' H) as (d & _ & B & _). apply M in I as (v & Q & _). congruence.
Qed.
Print Assumptions C34_mount.

Theorem C34_cd : forall uc lc st raw, reachable uc lc st ->
  (forall k, names_root uc st raw k ->
     cd uc raw st = match hm_get k (mounted st) with
                    | Some _ => Ok (mkStorage (st_factories st) (st_drives st) k)
                    | None => Err AlreadyExists end) /\
  (forall k n, names_file uc st raw k n -> cd uc raw st = Err InvalidInput).
Proof.
  intros uc lc st raw R. pose proof (reachable_ok uc lc st R) as W. split.
  - intros k H. assert (M : hm_get k (mounted st) = option_map fst (hm_get k (st_drives st))).
    { destruct (hm_get k (st_drives st)) as [[uri d]|] eqn:E; cbn [option_map fst].
      - apply hm_in_get; [apply increasing_nodup; apply (listing_increasing _ _ fst)|]. unfold mounted.
        apply (listing_in _ _ fst (st_drives st)); [exact (so_drives _ W)|]. exists (uri, d). auto.
      - destruct (hm_get k (mounted st)) as [uri|] eqn:E'; [|reflexivity]. exfalso. apply hm_get_in in E'.
        apply (listing_in _ _ fst (st_drives st)) in E' as (v & Q & _); [congruence|exact (so_drives _ W)]. }
    rewrite M. destruct (root_location uc st raw k H) as (l & E & L & K). unfold cd. rewrite E, L. unfold drive_of in K.
    destruct (l_drive l) as [q|].
    + subst q. destruct (hm_get k (st_drives st)); reflexivity.
    + subst k. pose proof (so_current _ W) as C. destruct (hm_get (st_current st) (st_drives st)); [|contradiction].
      destruct st; reflexivity.
  - intros k n H. destruct (named_location uc st raw k n H) as (l & E & L & _). unfold cd. rewrite E, L. reflexivity.
Qed.
Print Assumptions C34_cd.

(** Drives are listed once, in order. *)
Theorem C34_listing_sorted : forall st, increasing (map fst (mounted st)).
Proof. intros st. exact (listing_increasing _ _ fst (st_drives st)). Qed.
Print Assumptions C34_listing_sorted.

Definition st34 : storage :=
  match mount uc_ lc_ (u "aux") (u "MEMORY://") storage_default with
  | Ok st => match cd uc_ (u "Aux:") st with Ok st => st | Err _ => st end
  | Err _ => storage_default
  end.
Example C34_case : reachable uc_ lc_ st34 /\ cwd st34 = u "AUX:/" /\
  map fst (mounted st34) = [u "AUX"; u "MEMORY"] /\
  unmount uc_ (u "aux") st34 = Some (Err AlreadyExists) /\ unmount uc_ (u "xyz") st34 = Some (Err NotFound) /\
  mount uc_ lc_ (u "memory") (u "memory://") st34 = Err AlreadyExists.
Proof.
  split; [|vm_compute; repeat split].
  eapply R_op with (o := OCd (u "Aux:")); [|exact I|].
  - eapply R_op with (o := OMount (u "aux") (u "MEMORY://")); [apply R_start|exact I|reflexivity].
  - reflexivity.
Qed.

(** * C35 *)

(** [raw2] names another file than the file [n] of [k]. *)
Definition elsewhere uc st (raw2 k n : ustr) : Prop :=
  exists k2 n2, names_file uc st raw2 k2 n2 /\ (k2 <> k \/ n2 <> n).

Lemma same_names : forall uc st st' raw k n, st_current st' = st_current st -> names_file uc st raw k n -> names_file uc st' raw k n.
Proof. intros uc st st' raw k n E (d & L & ->). exists d. split; [exact L|]. destruct d; cbn [at_drive]; congruence. Qed.

Lemma frame : forall uc lc st st' k n d d', reachable uc lc st -> st_ok st' -> drive_at st k = Some d -> st' = set_drive st k d' ->
  (forall n2, n2 <> n -> drive_get n2 d' = drive_get n2 d) ->
  forall raw2, elsewhere uc st raw2 k n -> get uc raw2 st' = get uc raw2 st.
Proof.
  intros uc lc st st' k n d d' R W' D -> F raw2 (k2 & n2 & N2 & NE). pose proof (reachable_ok uc lc st R) as W.
  rewrite (get_file uc st raw2 k2 n2 W N2).
  rewrite (get_file uc _ raw2 k2 n2 W' (same_names uc _ _ _ _ _ (set_drive_current st k d') N2)).
  rewrite set_drive_at by congruence. destruct (ustr_eqb k2 k) eqn:E; [|reflexivity].
  apply ustr_eqb_eq in E as ->. rewrite D. destruct NE as [NE|NE]; [contradiction|]. rewrite (F n2 NE). reflexivity.
Qed.

Lemma put_get : forall n c d d', drive_put n c d = Ok d' ->
  drive_get n d' = Ok c /\ forall n2, n2 <> n -> drive_get n2 d' = drive_get n2 d.
Proof.
  intros n c [ps|ds] d' H; cbn [drive_put] in H; [|discriminate].
  assert (G : exists rs, d' = DMem (hm_insert n (c, rs) ps)).
  { destruct (hm_get n ps) as [[c0 rs]|]; injection H as <-; eauto. }
  destruct G as (rs & ->). cbn [drive_get]. split; [rewrite hm_get_insert, ustr_eqb_refl; reflexivity|].
  intros n2 NE. rewrite hm_get_insert. apply ustr_eqb_neq in NE. rewrite NE. reflexivity.
Qed.
Lemma put_exists : forall n c d e, drive_put n c d = Err e -> e = PermissionDenied /\ exists ds, d = DDemos ds.
Proof.
  intros n c [ps|ds] e H; cbn [drive_put] in H; [destruct (hm_get n ps) as [[? ?]|]; discriminate|]. split; [congruence|eauto].
Qed.

Theorem C35_put : forall uc lc st raw k n c st', reachable uc lc st -> names_file uc st raw k n ->
  put uc raw c st = Some (Ok st') ->
  get uc raw st' = Some (Ok c) /\ forall raw2, elsewhere uc st raw2 k n -> get uc raw2 st' = get uc raw2 st.
Proof.
  intros uc lc st raw k n c st' R NF H. pose proof (reachable_ok uc lc st R) as W.
  assert (W' : st_ok st') by (exact (perform_ok uc lc (OPut raw c) st st' W I H)).
  rewrite (put_file uc st raw k n c W NF) in H. destruct (drive_at st k) as [d|] eqn:D; [|discriminate].
  destruct (drive_put n c d) as [d'|] eqn:P; [|discriminate]. injection H as <-. destruct (put_get n c d d' P) as [G F]. split.
  - rewrite (get_file uc _ raw k n W' (same_names uc _ _ _ _ _ (set_drive_current st k d') NF)).
    rewrite set_drive_at, ustr_eqb_refl, G by congruence. reflexivity.
  - eapply frame; [exact R|exact W'|exact D|reflexivity|exact F].
Qed.
Print Assumptions C35_put.

(** Writing fails only on a drive that is not mounted or a read-only one. *)
Theorem C35_put_fails : forall uc lc st raw k n c e, reachable uc lc st -> names_file uc st raw k n ->
  put uc raw c st = Some (Err e) ->
  (e = NotFound /\ hm_get k (mounted st) = None) \/ (e = PermissionDenied /\ exists uri ds, hm_get k (st_drives st) = Some (uri, DDemos ds)).
Proof.
  intros uc lc st raw k n c e R NF H. pose proof (reachable_ok uc lc st R) as W.
  rewrite (put_file uc st raw k n c W NF) in H. unfold drive_at in H. destruct (hm_get k (st_drives st)) as [[uri d]|] eqn:D; cbn [option_map snd] in H.
  - destruct (drive_put n c d) as [d'|] eqn:P; [discriminate|]. injection H as ->. apply put_exists in P as [-> (ds & ->)]. right. eauto.
  - left. split; [congruence|]. destruct (hm_get k (mounted st)) as [w|] eqn:E; [|reflexivity]. apply hm_get_in in E.
    apply (listing_in _ _ fst (st_drives st)) in E as (v & Q & _); [congruence|exact (so_drives _ W)].
Qed.
Print Assumptions C35_put_fails.

Theorem C35_delete : forall uc lc st raw k n st', reachable uc lc st -> names_file uc st raw k n ->
  delete uc raw st = Some (Ok st') ->
  (exists c, get uc raw st = Some (Ok c)) /\ get uc raw st' = Some (Err NotFound) /\
  forall raw2, elsewhere uc st raw2 k n -> get uc raw2 st' = get uc raw2 st.
Proof.
  intros uc lc st raw k n st' R NF H. pose proof (reachable_ok uc lc st R) as W.
  assert (W' : st_ok st') by (exact (perform_ok uc lc (ODelete raw) st st' W I H)).
  rewrite (delete_file uc st raw k n W NF) in H. destruct (drive_at st k) as [d|] eqn:D; [|discriminate].
  destruct (drive_delete n d) as [d'|] eqn:P; [|discriminate]. injection H as <-.
  rewrite (get_file uc st raw k n W NF), D.
  rewrite (get_file uc _ raw k n W' (same_names uc _ _ _ _ _ (set_drive_current st k d') NF)).
  rewrite set_drive_at, ustr_eqb_refl by congruence.
  destruct d as [ps|ds]; cbn [drive_delete] in P; [|discriminate]. destruct (hm_get n ps) as [[c rs]|] eqn:E; [|discriminate]. injection P as <-.
  cbn [drive_get]. rewrite E, hm_get_remove, ustr_eqb_refl. split; [eauto|]. split; [reflexivity|].
  eapply frame; [exact R|exact W'|exact D|reflexivity|]. intros n2 NE. cbn [drive_get]. rewrite hm_get_remove.
  apply ustr_eqb_neq in NE. rewrite NE. reflexivity.
Qed.
Print Assumptions C35_delete.

(** Deleting a file that does not exist fails. *)
Theorem C35_delete_missing : forall uc lc st raw k n, reachable uc lc st -> names_file uc st raw k n ->
  get uc raw st = Some (Err NotFound) -> forall st', delete uc raw st <> Some (Ok st').
Proof.
  intros uc lc st raw k n R NF G st' H. destruct (C35_delete uc lc st raw k n st' R NF H) as [(c & E) _]. congruence.
Qed.
Print Assumptions C35_delete_missing.

(** COPY to a file, or to a drive, which keeps the name. *)
Theorem C35_copy : forall uc lc st src dest k n c st', reachable uc lc st ->
  (exists k0 n0, names_file uc st src k0 n0) -> names_target uc st src dest k n -> get uc src st = Some (Ok c) ->
  copy uc src dest st = Some (Ok st') ->
  (forall raw, names_file uc st raw k n -> get uc raw st' = Some (Ok c)) /\
  forall raw2, elsewhere uc st raw2 k n -> get uc raw2 st' = get uc raw2 st.
Proof.
  intros uc lc st src dest k n c st' R (k0 & n0 & NS) T G H. pose proof (reachable_ok uc lc st R) as W.
  assert (W' : st_ok st') by (exact (perform_ok uc lc (OCopy src dest) st st' W I H)).
  rewrite (copy_file uc st src k0 n0 dest k n W NS T) in H. rewrite (get_file uc st src k0 n0 W NS) in G.
  destruct (drive_at st k0) as [d0|]; [|discriminate]. destruct (drive_get n0 d0) as [c'|]; [|discriminate]. injection G as ->.
  destruct (drive_at st k) as [d|] eqn:D; [|discriminate]. destruct (drive_put n c d) as [d'|] eqn:P; [|discriminate]. injection H as <-.
  destruct (put_get n c d d' P) as [G F]. split.
  - intros raw NF. rewrite (get_file uc _ raw k n W' (same_names uc _ _ _ _ _ (set_drive_current st k d') NF)).
    rewrite set_drive_at, ustr_eqb_refl, G by congruence. reflexivity.
  - eapply frame; [exact R|exact W'|exact D|reflexivity|exact F].
Qed.
Print Assumptions C35_copy.

(** Other operations change no file of the drives that stay mounted. *)
Theorem C35_other_operations : forall uc lc st o st' k n raw,
  reachable uc lc st -> op_ok o -> perform uc lc o st = Some (Ok st') ->
  (match o with OPut _ _ | ODelete _ | OCopy _ _ => False | _ => True end) ->
  (exists uri, In (k, uri) (mounted st)) -> (exists uri, In (k, uri) (mounted st')) ->
  names_file uc st raw k n -> forall raw', names_file uc st' raw' k n ->
  get uc raw' st' = get uc raw st.
Proof.
  intros uc lc st o st' k n raw R O H Q M M' NF raw' NF'. pose proof (reachable_ok uc lc st R) as W.
  pose proof (perform_ok uc lc o st st' W O H) as W'. rewrite (get_file uc st raw k n W NF), (get_file uc st' raw' k n W' NF').
  destruct M as (w & M). apply (listing_in _ _ fst (st_drives st)) in M as (v & M & _); [|exact (so_drives _ W)].
  destruct M' as (w' & M'). apply (listing_in _ _ fst (st_drives st')) in M' as (v' & M' & _); [|exact (so_drives _ W')].
  destruct o as [name uri|name|raw0|raw0 c|raw0|src dest|raw0 a r|scheme f]; cbn [perform] in H; try contradiction.
  - unfold mount in H. destruct (split_uri uri) as [[scheme path]|]; [|discriminate].
    destruct (hm_get _ (st_factories st)) as [f|]; [|discriminate]. destruct (f path) as [d|]; [|discriminate].
    unfold attach in H. destruct (drive_key uc name) as [q|] eqn:K; [|discriminate].
    destruct (hm_get q (st_drives st)) eqn:E; [discriminate|]. injection H as <-. unfold drive_at. cbn [with_drives st_drives].
    rewrite hm_get_insert. destruct (ustr_eqb k q) eqn:EQ; [|reflexivity]. apply ustr_eqb_eq in EQ as ->. congruence.
  - rewrite (unmount_is uc lc st name R) in H. destruct (drive_name_valid name); [|discriminate].
    destruct (hm_get _ (mounted st)); [|discriminate]. destruct (ustr_eqb _ _); [discriminate|]. injection H as <-.
    cbn [st_drives] in M'. unfold drive_at. cbn [st_drives]. rewrite hm_get_remove in *. destruct (ustr_eqb _ _); [discriminate|reflexivity].
  - unfold cd in H. destruct (location_new uc raw0) as [l|]; [|discriminate]. destruct (leaf_name l); [discriminate|].
    destruct (l_drive l) as [q|]; [|injection H as <-; reflexivity]. destruct (hm_get q (st_drives st)); [|discriminate]. injection H as <-. reflexivity.
  - unfold update_acls in H. destruct (location_new uc raw0) as [l|] eqn:E; [|discriminate].
    destruct (location_cases uc st raw0 l E) as [(m & L & NM)|[L _]]; [|unfold changing in H; rewrite on_root_is in H by exact L; discriminate].
    rewrite (changing_is st l m _ W L) in H. set (q := drive_of st l) in *. destruct (drive_at st q) as [d|] eqn:D; [|discriminate].
    destruct (drive_update_acls m a r d) as [d'|] eqn:U; [|discriminate]. injection H as <-.
    rewrite set_drive_at by congruence. destruct (ustr_eqb k q) eqn:EQ; [|reflexivity]. apply ustr_eqb_eq in EQ as ->. rewrite D.
    destruct d as [ps|ds]; cbn [drive_update_acls] in U; [|discriminate]. destruct (hm_get m ps) as [[c rs]|] eqn:G; [|discriminate]. injection U as <-.
    cbn [drive_get]. rewrite hm_get_insert. destruct (ustr_eqb n m) eqn:EN; [|reflexivity]. apply ustr_eqb_eq in EN as ->. rewrite G. reflexivity.
  - injection H as <-. reflexivity.
Qed.
Print Assumptions C35_other_operations.

(** The listing of an in-memory drive has each file once, in order, with its length. *)
Theorem C35_enumerate : forall uc lc st raw k uri ps, reachable uc lc st -> names_root uc st raw k ->
  hm_get k (st_drives st) = Some (uri, DMem ps) ->
  exists files, enumerate uc raw st = Some (Ok files) /\ increasing (map fst files) /\
    forall file n, names_file uc st file k n ->
      forall len, In (n, len) files <-> exists c, get uc file st = Some (Ok c) /\ len = length c.
Proof.
  intros uc lc st raw k uri ps R NR D. pose proof (reachable_ok uc lc st R) as W.
  destruct (root_location uc st raw k NR) as (l & E & L & <-). exists (drive_enumerate (DMem ps)).
  split; [unfold enumerate; rewrite E, L, (get_drive_is st l W), D; reflexivity|].
  split; [exact (listing_increasing _ _ (fun v : bytes * list ustr => length (fst v)) ps)|].
  intros file n NF len. rewrite (get_file uc st file _ n W NF). unfold drive_at. rewrite D. cbn [option_map snd drive_get].
  assert (ND : NoDup (map fst ps)) by (apply hm_get_in in D; apply (so_each _ W _ _ _ D)).
  cbn [drive_enumerate]. rewrite (listing_in _ _ (fun v : bytes * list ustr => length (fst v)) ps n len ND). split.
  - intros ([c rs] & G & ->). rewrite G. eauto.
  - intros (c & G & ->). destruct (hm_get n ps) as [[c0 rs]|]; [|discriminate]. injection G as ->. exists (c, rs). auto.
Qed.
Print Assumptions C35_enumerate.

(** A file in the current drive is the same with the drive spelled out. *)
Theorem C35_spelling : forall uc lc st raw raw' k n, reachable uc lc st ->
  names_file uc st raw k n -> names_file uc st raw' k n -> get uc raw st = get uc raw' st.
Proof.
  intros uc lc st raw raw' k n R A B. pose proof (reachable_ok uc lc st R) as W.
  rewrite (get_file uc st raw k n W A), (get_file uc st raw' k n W B). reflexivity.
Qed.
Print Assumptions C35_spelling.

Definition st35 : storage :=
  match put uc_ (u "memory:a.bas") [1; 2; 3] st34 with
  | Some (Ok st) => match copy uc_ (u "MEMORY:a.bas") (u "aux:/") st with Some (Ok st) => st | _ => st end
  | _ => st34 end.
Example C35_case : reachable uc_ lc_ st35 /\ get uc_ (u "a.bas") st35 = Some (Ok [1; 2; 3]) /\
  enumerate uc_ (u "aux:") st35 = Some (Ok [(u "a.bas", 3%nat)]) /\
  get uc_ (u "A.BAS") st35 = Some (Err NotFound).
Proof.
  split; [|vm_compute; repeat split].
  eapply R_op with (o := OCopy (u "MEMORY:a.bas") (u "aux:/")); [|exact I|].
  - eapply R_op with (o := OPut (u "memory:a.bas") [1; 2; 3]); [apply C34_case|exact I|vm_compute; reflexivity].
  - vm_compute. reflexivity.
Qed.

(** * C36 *)

(** The readers after one update. *)
Theorem C36_update : forall uc lc st raw k n add remove st' rs, reachable uc lc st -> names_file uc st raw k n ->
  update_acls uc raw add remove st = Some (Ok st') -> get_acls uc raw st = Some (Ok rs) ->
  exists rs', get_acls uc raw st' = Some (Ok rs') /\ increasing rs' /\
    forall r, In r rs' <-> In r add \/ (In r rs /\ ~ In r remove).
Proof.
  intros uc lc st raw k n add remove st' rs R NF H G. pose proof (reachable_ok uc lc st R) as W.
  assert (W' : st_ok st') by (exact (perform_ok uc lc (OUpdateAcls raw add remove) st st' W I H)).
  rewrite (update_acls_file uc st raw k n add remove W NF) in H. rewrite (get_acls_file uc st raw k n W NF) in G.
  destruct (drive_at st k) as [d|] eqn:D; [|discriminate]. pose proof (drive_at_ok _ _ _ W D) as DO.
  destruct d as [ps|ds]; cbn [drive_update_acls drive_get_acls] in *; [|discriminate].
  destruct (hm_get n ps) as [[c rs0]|] eqn:E; [|discriminate]. injection H as <-. injection G as <-.
  eexists. split.
  { rewrite (get_acls_file uc _ raw k n W' (same_names uc _ _ _ _ _ (set_drive_current st k _) NF)).
    rewrite set_drive_at, ustr_eqb_refl by congruence. cbn [drive_get_acls]. rewrite hm_get_insert, ustr_eqb_refl. reflexivity. }
  apply hm_get_in in E. destruct DO as [_ DO]. destruct (DO _ _ _ E) as [_ ND].
  split; [apply sort_increasing, inserts_nodup, removes_nodup, ND|].
  intros r. rewrite !sort_in, inserts_in, removes_in. tauto.
Qed.
Print Assumptions C36_update.

(** Any number of updates of a file, in order, without other operations in between. *)
Inductive updates uc (raw : ustr) : storage -> list (list ustr * list ustr) -> storage -> Prop :=
| U_none st : updates uc raw st [] st
| U_one st l st1 add remove st2 : updates uc raw st l st1 -> update_acls uc raw add remove st1 = Some (Ok st2) ->
    updates uc raw st ((add, remove) :: l) st2.

Lemma updates_reachable : forall uc lc raw st l st', updates uc raw st l st' -> reachable uc lc st -> reachable uc lc st' /\ st_current st' = st_current st.
Proof.
  intros uc lc raw st l st' H R. induction H as [st|st l st1 add remove st2 H IH U]; [auto|]. destruct (IH R) as [R1 E1]. split.
  - exact (R_op uc lc st1 (OUpdateAcls raw add remove) st2 R1 I U).
  - rewrite <- E1. unfold update_acls in U. destruct (location_new uc raw); [|discriminate]. unfold changing in U.
    destruct (on_file _ _ _) as [[d|]|]; try discriminate. injection U as <-. unfold with_drive. destruct (hm_get _ _) as [[? ?]|]; reflexivity.
Qed.

Theorem C36_history : forall uc lc raw k n st l st' rs, reachable uc lc st -> names_file uc st raw k n ->
  get_acls uc raw st = Some (Ok []) -> updates uc raw st l st' -> get_acls uc raw st' = Some (Ok rs) ->
  increasing rs /\ forall r, In r rs <-> granted r l.
Proof.
  intros uc lc raw k n st l st' rs R NF G H. revert rs. induction H as [st|st l st1 add remove st2 H IH U]; intros rs G'.
  - assert (rs = []) by congruence. subst rs. split; [exact I|]. intros r. cbn. tauto.
  - destruct (updates_reachable uc lc raw st l st1 H R) as [R1 C1]. pose proof (same_names uc _ _ _ _ _ C1 NF) as NF1.
    assert (G1 : exists rs1, get_acls uc raw st1 = Some (Ok rs1)).
    { pose proof (reachable_ok uc lc st1 R1) as W1. rewrite (update_acls_file uc st1 raw k n add remove W1 NF1) in U.
      rewrite (get_acls_file uc st1 raw k n W1 NF1). destruct (drive_at st1 k) as [[ps|ds]|]; cbn [drive_update_acls drive_get_acls] in *; try discriminate.
      destruct (hm_get n ps) as [[c rs0]|]; [eauto|discriminate]. }
    destruct G1 as (rs1 & G1). destruct (IH R NF G rs1 G1) as [_ IH1].
    destruct (C36_update uc lc st1 raw k n add remove st2 rs1 R1 NF1 U G1) as (rs2 & G2 & S2 & I2).
    assert (rs2 = rs) by congruence. subst rs2. split; [exact S2|]. intros r. rewrite I2, IH1. cbn [granted]. tauto.
Qed.
Print Assumptions C36_history.

(** Overwriting keeps the readers; a new file has none. *)
Theorem C36_put : forall uc lc st raw k n c st', reachable uc lc st -> names_file uc st raw k n ->
  put uc raw c st = Some (Ok st') ->
  (forall rs, get_acls uc raw st = Some (Ok rs) -> get_acls uc raw st' = Some (Ok rs)) /\
  (get uc raw st = Some (Err NotFound) -> get_acls uc raw st' = Some (Ok [])).
Proof.
  intros uc lc st raw k n c st' R NF H. pose proof (reachable_ok uc lc st R) as W.
  assert (W' : st_ok st') by (exact (perform_ok uc lc (OPut raw c) st st' W I H)).
  rewrite (put_file uc st raw k n c W NF) in H. destruct (drive_at st k) as [d|] eqn:D; [|discriminate].
  destruct (drive_put n c d) as [d'|] eqn:P; [|discriminate]. injection H as <-.
  rewrite (get_acls_file uc _ raw k n W' (same_names uc _ _ _ _ _ (set_drive_current st k d') NF)).
  rewrite set_drive_at, ustr_eqb_refl, (get_acls_file uc st raw k n W NF), (get_file uc st raw k n W NF), D by congruence.
  destruct d as [ps|ds]; cbn [drive_put] in P; [|discriminate]. cbn [drive_get_acls drive_get].
  destruct (hm_get n ps) as [[c0 rs]|]; injection P as <-; cbn [drive_get_acls]; rewrite hm_get_insert, ustr_eqb_refl;
    (split; [intros rs' Q; congruence|]); intros Q; [discriminate|reflexivity].
Qed.
Print Assumptions C36_put.

Example C36_case :
  match update_acls uc_ (u "a.bas") [u "x"; u "b"] [] st35 with
  | Some (Ok st) =>
      match update_acls uc_ (u "a.bas") [u "c"; u "b"] [u "x"; u "b"] st with
      | Some (Ok st) => get_acls uc_ (u "a.bas") st = Some (Ok [u "b"; u "c"])
      | _ => False
      end
  | _ => False
  end.
Proof. vm_compute. reflexivity. Qed.
