(** C41 and C42: the full-screen editor. *)
From Coq Require Import String.
From Verif Require Import Base Colors_Model Draw_Model Draw_Spec Lcd_Model Lcd_Spec Strings_Model Readline_Model Gfx_Model Gfx_Spec Gfx_Proofs Gfx_Props
  Editor_Model Editor_Spec Editor_Proofs Editor_Screen Editor_Pixels.
Local Open Scope string_scope.
Local Open Scope nat_scope.
Local Open Scope list_scope.

(** ** C41: the cursor and the text *)

(** After any keys, the editor waits for the next one with the text and the cursor that the keys make. *)
Theorem C41_keys w h sync keys e b : 1 <= w -> 2 <= h -> holds e b -> no_wide_spaces (whole b) ->
  Forall plain_key keys -> (forall k, In k keys -> leaves k = false) ->
  exists e' ops, edit w h sync keys e = Some (Waiting e', ops) /\
    holds e' (type_keys h keys b) /\ e_name e' = e_name e /\ e_dirty e' = e_dirty e || modifies h keys b.
Proof.
  intros W H Hb NW PK NL. unfold edit, edit_interactively. rewrite (with_a_line_same e b Hb).
  destruct (loop_waiting w h W H keys e b RFull Hb NW PK NL) as (e' & ops & -> & R). do 2 eexists. split; [reflexivity|exact R].
Qed.
Print Assumptions C41_keys.

(** Leaving keeps them, and does not read the keys that come after. *)
Theorem C41_leaving w h sync keys k rest e b : 1 <= w -> 2 <= h -> holds e b -> no_wide_spaces (whole b) ->
  Forall plain_key keys -> (forall k, In k keys -> leaves k = false) -> leaves k = true ->
  exists e' ops, edit w h sync (keys ++ k :: rest) e = Some (Left e' rest, ops) /\
    holds e' (type_keys h keys b) /\ e_name e' = e_name e /\ e_dirty e' = e_dirty e || modifies h keys b.
Proof.
  intros W H Hb NW PK NL Lk. unfold edit, edit_interactively. rewrite (with_a_line_same e b Hb).
  destruct (loop_left w h W H keys k rest e b RFull Hb NW PK NL Lk) as (e' & ops & -> & R). do 2 eexists. split; [reflexivity|exact R].
Qed.
Print Assumptions C41_leaving.

(** No key makes the editor panic, with any text whose lines have the cursor, even with wide spaces. *)
Theorem C41_never_panics w h sync keys e : 1 <= w -> 2 <= h ->
  e_line e < length (e_content e) \/ (e_content e = [] /\ e_line e = 0) ->
  exists r ops, edit w h sync keys e = Some (r, ops) /\
    e_line (current r) < length (e_content (current r)) /\
    e_vline (current r) <= e_line (current r) < e_vline (current r) + (h - 1) /\
    e_vcol (current r) <= e_col (current r) < e_vcol (current r) + w.
Proof.
  intros W H L. assert (L1 : e_line (with_a_line e) < length (e_content (with_a_line e))).
  { unfold with_a_line. destruct (e_content e) eqn:E; [|destruct L as [L|[L _]]; [rewrite E; exact L|discriminate]].
    destruct L as [L|[_ L]]; [cbn in L; lia|]. cbn [with_text e_line e_content length]. lia. }
  unfold edit, edit_interactively. destruct (loop_total w h W H keys _ RFull L1) as ([e'|e' rest] & ops & -> & R1 & R2); do 2 eexists; (split; [reflexivity|]); split; try exact R1; exact R2.
Qed.
Print Assumptions C41_never_panics.

(** Whenever the editor waits for a key, and whatever was on the screen, the screen shows a window of the
    text with the cursor where it is, and the status line. *)
Theorem C41_screen w h sync keys e b s : 1 <= w -> 2 <= h -> holds e b -> no_wide_spaces (whole b) -> ascii_name (e_name e) ->
  Forall plain_key keys -> (forall k, In k keys -> leaves k = false) ->
  exists e' ops, edit w h sync keys e = Some (Waiting e', ops) /\
    shows w h (e_name e) (e_dirty e || modifies h keys b) (type_keys h keys b) (acts w h ops s).
Proof.
  intros W H Hb NW As PK NL. unfold edit, edit_interactively. rewrite (with_a_line_same e b Hb).
  destruct (loop_waiting w h W H keys e b RFull Hb NW PK NL) as (e' & ops & E & R1 & R2 & R3). rewrite E. do 2 eexists. split; [reflexivity|].
  pose proof (loop_screen w h W H keys e b RFull (acts w h [EEnterAlt; ESync false] s) _ _ E Hb NW PK Logic.I) as Y. cbn [editor_of] in Y.
  rewrite <- R2, <- R3. change (EEnterAlt :: ESync false :: ops) with ([EEnterAlt; ESync false] ++ ops). rewrite acts_app.
  apply ready_shows; try assumption. rewrite R2. exact As.
Qed.
Print Assumptions C41_screen.

(** The operations of a run with more keys start with those of the run with less. *)
Theorem C41_screen_at_every_key w h sync keys more e e1 ops1 r ops :
  edit w h sync keys e = Some (Waiting e1, ops1) -> edit w h sync (keys ++ more) e = Some (r, ops) ->
  exists rest, ops = ops1 ++ rest.
Proof.
  unfold edit, edit_interactively. destruct (edit_loop w h keys (with_a_line e) RFull) as [[[e2|e2 r2] a]|] eqn:E1; try discriminate.
  intros Q. injection Q as -> <-. destruct (edit_loop w h (keys ++ more) (with_a_line e) RFull) as [[res d]|] eqn:E2; [|discriminate].
  destruct (loop_more w h keys more _ _ _ _ _ _ E1 E2) as (rest & ->).
  destruct res as [e3|e3 r3]; intros Q; injection Q as _ <-; [exists rest; reflexivity|].
  exists (rest ++ [ESync sync; ELeaveAlt]). cbn [app]. rewrite !app_assoc. reflexivity.
Qed.
Print Assumptions C41_screen_at_every_key.

(** After leaving, the screen is what it was. *)
Theorem C41_screen_after w h sync keys e e' rest ops s : g_saved s = None -> edit w h sync keys e = Some (Left e' rest, ops) ->
  let s' := acts w h ops s in
  (forall c r, g_cell s' c r = g_cell s c r) /\ g_x s' = g_x s /\ g_y s' = g_y s /\ g_color s' = g_color s /\ g_saved s' = None.
Proof.
  intros S0. unfold edit, edit_interactively. destruct (edit_loop w h keys (with_a_line e) RFull) as [[[e2|e2 r2] a]|] eqn:E1; try discriminate.
  intros Q. injection Q as _ _ <-. change (EEnterAlt :: ESync false :: a ++ [ESync sync; ELeaveAlt]) with ([EEnterAlt; ESync false] ++ a ++ [ESync sync; ELeaveAlt]).
  rewrite !acts_app. pose proof (all_stay_saved w h a (acts w h [EEnterAlt; ESync false] s) (loop_stays _ _ _ _ _ _ _ E1)) as Sv.
  set (s1 := acts w h a _) in *. cbn [acts fold_left act g_saved] in Sv. cbn [acts fold_left act]. cbv zeta. rewrite Sv. cbn [g_cell g_x g_y g_color g_saved].
  repeat split.
Qed.
Print Assumptions C41_screen_after.

(** A text of four lines in a window of two, with the cursor at its end. *)
Definition four_lines : ustr := u "ONE" ++ [10%N] ++ u "  TWO" ++ [10%N] ++ [10%N] ++ u "FOUR" ++ [10%N].
Definition four : editor := load (Some (u "A.BAS")) four_lines editor_default.
Definition four_writing : writing := mkWriting [] (removelast four_lines) 0.
Definition four_keys : list key := [KArrowDown; KEnd; KNewLine; KChar 88%N; KPageDown; KTab; KBackspace; KHome; KBackspace].
Example C41_case :
  holds four four_writing /\ no_wide_spaces (whole four_writing) /\ ascii_name (e_name four) /\
  Forall plain_key four_keys /\ (forall k, In k four_keys -> leaves k = false) /\
  whole (type_keys 3 four_keys four_writing) = u "ONE" ++ [10%N] ++ u "  TWO" ++ [10%N] ++ u "  X" ++ [10%N] ++ u "FOUR".
Proof.
  split.
  { constructor; try reflexivity. intros l I. vm_compute in I.
    repeat (destruct I as [<-|I]; [intros J; vm_compute in J; repeat (destruct J as [J|J]; [discriminate J|]); destruct J|]). destruct I. }
  split; [intros c I; vm_compute in I; repeat (destruct I as [<-|I]; [reflexivity|]); destruct I|].
  split; [intros c I; vm_compute in I; repeat (destruct I as [<-|I]; [lia|]); destruct I|].
  split; [repeat (constructor; [try exact Logic.I; try (split; [discriminate|reflexivity])|]); constructor|].
  split; [intros k I; repeat destruct I as [<-|I]; try reflexivity; destruct I|]. vm_compute. reflexivity.
Qed.

(** On a graphical console, what the device shows are the glyphs of that screen, with the cursor in the
    color of the text.  If the columns take all the width of the display, without the tabulator. *)
Theorem C41_pixels v0 z sync keys e b g v seen sy : good_sizes v0 z -> blank_space v0 ->
  agrees v0 z g (v, seen, sy) -> v_alt v = None ->
  holds e b -> no_wide_spaces (whole b) -> ascii_name (e_name e) ->
  Forall plain_key keys -> (forall k, In k keys -> leaves k = false) ->
  ((cols z * s_gw z < s_w z)%Z \/ ~ In KTab keys) ->
  let w := Z.to_nat (cols z) in
  let h := Z.to_nat (rows z) in
  exists e' ops g' s, edit w h sync keys e = Some (Waiting e', ops) /\ run_ops v0 (map on_console ops) g = Some g' /\
    shows w h (e_name e) (e_dirty e || modifies h keys b) (type_keys h keys b) s /\
    forall c r p, c < w -> r < h -> in_area (cell z (Z.of_nat c) (Z.of_nat r)) p = true ->
      shown (c_lcd g') p = if (c =? g_x s) && (r =? g_y s) then encode v0 (rgb_of 7) else glyph_pixel v0 z (g_cell s c r) c r p.
Proof.
  intros Gs Bs Ag Al Hb NW As PK NL NT w h. pose proof (cols_pos _ _ Gs). pose proof (rows_pos _ _ Gs).
  apply (edit_pixels v0 z w h Gs) with (v := v) (seen := seen) (sy := sy); try assumption; try (unfold w, h; lia).
  unfold tight. destruct (Z.eqb_spec (cols z * s_gw z) (s_w z)); [|discriminate]. destruct NT; [lia|]. intros _. assumption.
Qed.
Print Assumptions C41_pixels.

Example C41_pixels_case : good_sizes setup1 sizes5 /\ blank_space setup1 /\ (cols sizes5 * s_gw sizes5 < s_w sizes5)%Z /\
  (exists g v seen, agrees setup1 sizes5 g (v, seen, true) /\ v_alt v = None).
Proof.
  split; [exact sizes5_good|]. split.
  - intros i j. unfold lit. destruct (Z.leb_spec 0 i); [|reflexivity]. destruct (Z.leb_spec 0 j); [|reflexivity]. cbn [andb].
    destruct (Z.ltb_spec j (Z.of_nat (f_height (glyphs setup1)))) as [Lj|]; [|reflexivity]. destruct (Z.ltb_spec (i / 8) (Z.of_nat (f_stride (glyphs setup1)))) as [Li|]; [|reflexivity].
    destruct (_ <? _)%Z; [|reflexivity]. cbn [andb]. assert (Ej : j = 0%Z \/ j = 1%Z) by (change (Z.of_nat (f_height (glyphs setup1))) with 2%Z in Lj; lia).
    assert (Ei : (i / 8 = 0)%Z) by (change (Z.of_nat (f_stride (glyphs setup1))) with 1%Z in Li; pose proof (Z.div_pos i 8); lia). rewrite Ei.
    destruct Ej as [-> | ->]; exact (N.bits_0 _).
  - split; [reflexivity|]. destruct (new_con_spec setup1 sizes5 [] [] (fun _ _ => []) sizes5_good) as (g & _ & Ag). do 3 eexists. split; [exact Ag|reflexivity].
Qed.

(** Otherwise the tabulator may take the cursor out of the display, and the console panics. *)
Theorem C41_tabulator_refuted : exists v0 z g e' ops, good_sizes v0 z /\
  new_con v0 (new_lcd (s_w z) (s_h z) [] [] (fun _ _ => [])) = Some g /\
  edit (Z.to_nat (cols z)) (Z.to_nat (rows z)) true [KTab] editor_default = Some (Waiting e', ops) /\
  run_ops v0 (map on_console ops) g = None.
Proof.
  assert (Wt : forall o : option con, forall ops, match o with Some g => match run_ops setup1 ops g with None => true | _ => false end | _ => false end = true ->
            exists g, o = Some g /\ run_ops setup1 ops g = None).
  { intros [g|] ops Q; [|discriminate]. exists g. split; [reflexivity|]. destruct (run_ops setup1 ops g); [discriminate|reflexivity]. }
  destruct (edit 2 2 true [KTab] editor_default) as [[[e'|] ops]|] eqn:E; try (vm_compute in E; discriminate).
  destruct (Wt (new_con setup1 (new_lcd (s_w sizes4) (s_h sizes4) [] [] (fun _ _ => []))) (map on_console ops)) as (g & E1 & E2).
  { vm_compute in E. injection E as _ <-. vm_compute. reflexivity. }
  exists setup1, sizes4, g, e', ops. split; [exact sizes4_good|]. split; [exact E1|]. split; [exact E|exact E2].
Qed.
Print Assumptions C41_tabulator_refuted.

(** Without the hypothesis about wide spaces it is not so: after a new line that copies one of them, the cursor is past
    the end of the line, because the code counts its bytes. *)
Theorem C41_wide_space_refuted : exists t keys e' ops line,
  edit 80 25 true keys (load None t editor_default) = Some (Waiting e', ops) /\
  line_at e' (e_line e') = Some line /\ length line < e_col e'.
Proof.
  exists [160%N; 65%N; 10%N], [KEnd; KNewLine]. do 3 eexists. split; [vm_compute; reflexivity|]. split; [vm_compute; reflexivity|]. vm_compute. lia.
Qed.
Print Assumptions C41_wide_space_refuted.

(** The status line has the number of columns that the bytes of the name leave: with other names, the last
    columns are not part of it. *)
Theorem C41_status_line_refuted : exists name e' ops s,
  edit 80 25 true [] (load (Some name) [] editor_default) = Some (Waiting e', ops) /\
  snd (g_cell (acts 80 25 ops s) 79 24) <> (Some 15%N, Some 4%N).
Proof.
  exists [241%N], (with_text (load (Some [241%N]) [] editor_default) [[]] false). eexists.
  exists (mkScreen (fun _ _ => (32%N, (None, None))) 0 0 true (None, None) None). split; [vm_compute; reflexivity|]. vm_compute. discriminate.
Qed.
Print Assumptions C41_status_line_refuted.

(** ** C42: texts *)

(** What is loaded is what is read back, with one kind of end of line and one at the end. *)
Theorem C42_load name t e : let e' := load name t e in
  text e' = unix_text t /\ e_name e' = name /\ e_dirty e' = false /\ e_line e' = 0 /\ e_col e' = 0.
Proof. cbv zeta. split; [apply load_text|]. repeat split. Qed.
Print Assumptions C42_load.

Theorem C42_load_same name t e : (forall q r, t <> q ++ 13%N :: 10%N :: r) -> t = [] \/ (exists q, t = q ++ [10%N]) ->
  text (load name t e) = t.
Proof. intros NC En. rewrite load_text. apply unix_same; assumption. Qed.
Print Assumptions C42_load_same.

(** Saving a text and loading it gives its lines, unless they end in a carriage return. *)
Theorem C42_save_load name e b e0 : holds e b -> (forall l q, In l (e_content e) -> l <> q ++ [13%N]) ->
  e_content (load name (text e) e0) = e_content e /\ text (load name (text e) e0) = text e.
Proof.
  intros Hb NC. assert (E : e_content (load name (text e) e0) = e_content e).
  { cbn [load e_content]. rewrite text_enders, lines_enders by exact (h_lines _ _ Hb). rewrite <- (map_id (e_content e)) at 2.
    apply map_ext_in. intros l I. apply strip_cr_same. intros q. exact (NC l q I). }
  split; [exact E|]. rewrite (text_enders (load name (text e) e0)), E. symmetry. apply text_enders.
Qed.
Print Assumptions C42_save_load.

(** The name, the text and whether it is modified, after a program is loaded, saved and edited many times. *)
Theorem C42_histories vs : Forall good_event vs ->
  exists e', fold_left in_code vs (Some editor_default) = Some e' /\
    let p := fold_left on_paper vs (mkPaper None (mkWriting [] [] 0) true false) in
    text e' = paper_text p /\ e_name e' = p_name p /\ e_dirty e' = p_dirty p.
Proof.
  intros G. destruct (events_spec vs editor_default (mkPaper None (mkWriting [] [] 0) true false) G) as (e' & E & F).
  - repeat split. intros c [].
  - exists e'. split; [exact E|]. cbv zeta. split; [exact (on_file_text _ _ F)|]. destruct F as (F1 & F2 & _). split; assumption.
Qed.
Print Assumptions C42_histories.

Definition some_history : list event :=
  [Loaded (Some (u "A.BAS")) (u "A" ++ [13%N; 10%N] ++ u "  B"); Edited 20 4 [KArrowDown; KEnd; KNewLine; KChar 67%N];
   Saved (u "B.BAS"); Edited 80 25 [KArrowUp; KHome]; Loaded None []; Edited 3 2 [KChar 88%N; KTab]].
Example C42_case : Forall good_event some_history /\
  (forall n, p_dirty (fold_left on_paper (firstn n some_history) (mkPaper None (mkWriting [] [] 0) true false)) =
             match n with 2 => true | S (S (S (S (S (S _))))) => true | _ => false end) /\
  paper_text (fold_left on_paper (firstn 4 some_history) (mkPaper None (mkWriting [] [] 0) true false)) =
    u "A" ++ [10%N] ++ u "  B" ++ [10%N] ++ u "  C" ++ [10%N] /\
  paper_text (fold_left on_paper some_history (mkPaper None (mkWriting [] [] 0) true false)) = u "X   " ++ [10%N].
Proof.
  split.
  { assert (T : forall t, forallb (fun c => negb (wide_space c)) t = true -> no_wide_spaces t).
    { intros t F c I. apply forallb_forall with (x := c) in F; [|exact I]. destruct (wide_space c); [discriminate|reflexivity]. }
    assert (K : forall k, forallb (fun k => match k with KChar c => negb (c =? 10)%N && negb (wide_space c) | _ => true end) k = true -> Forall plain_key k).
    { intros k F. apply Forall_forall. intros x I. apply forallb_forall with (x := x) in F; [|exact I]. destruct x; try exact Logic.I.
      apply andb_true_iff in F. destruct F as [F1 F2]. split; [destruct (N.eqb_spec c 10); [discriminate|assumption]|destruct (wide_space c); [discriminate|reflexivity]]. }
    assert (L : forall k, forallb (fun k => negb (leaves k)) k = true -> forall x, In x k -> leaves x = false).
    { intros k F x I. apply forallb_forall with (x := x) in F; [|exact I]. destruct (leaves x); [discriminate|reflexivity]. }
    unfold some_history. repeat apply Forall_cons; try apply Forall_nil; cbn [good_event]; try exact Logic.I; try (apply T; vm_compute; reflexivity);
      (split; [lia|]; split; [lia|]; split; [apply K; vm_compute; reflexivity|apply L; reflexivity]). }
  split; [|split; vm_compute; reflexivity].
  intros n. do 6 (destruct n as [|n]; [vm_compute; reflexivity|]). destruct n; vm_compute; reflexivity.
Qed.

(** Looking at an empty program gives it a line, and it is not modified. *)
Theorem C42_unmodified_refuted : exists keys e' rest ops,
  edit 80 25 true keys editor_default = Some (Left e' rest, ops) /\ text e' <> text editor_default /\ e_dirty e' = false.
Proof.
  exists [KEscape]. do 3 eexists. split; [vm_compute; reflexivity|]. split; [vm_compute; discriminate|reflexivity].
Qed.
Print Assumptions C42_unmodified_refuted.

(** Saving and loading may change a text again. *)
Theorem C42_save_load_refuted : exists t name e, text (load name (text (load name t e)) e) <> text (load name t e).
Proof. exists [13%N; 13%N; 10%N], None, editor_default. vm_compute. discriminate. Qed.
Print Assumptions C42_save_load_refuted.
