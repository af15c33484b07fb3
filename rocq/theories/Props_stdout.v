(** * Theorems on the standard output of the programs: C99. *)
From Coq Require Import Strings.String Lia.
From Verif Require Import Props_textout Rect Base Dbl Geom Decimal Shadow Streams Handlers Surface Projection Raster Ogr Spec_text Spec_io Cli Spec_cli Docopt Spec_line Stdout Spec_stdout Handlers_proofs Docopt_proofs Line_proofs Props_cli Ortho_line Format_line Props_line Props_line2 Xml_proofs.
Import List.
Open Scope nat_scope.

(** ** Printing changes nothing else *)
Definition erase {A} (r : world * str * outcome A) : world * outcome A := (fst (fst r), snd r).
Definition text {A} (r : world * str * A) : str := snd (fst r).
Lemma erase_pbnd {A B} (x : pact A) (k : A -> pact B) (x' : act A) (k' : A -> act B) w :
  (forall w, erase (x w) = x' w) -> (forall a w, erase (k a w) = k' a w) -> erase (pbnd x k w) = bnd x' k' w.
Proof.
  intros H I. unfold pbnd, bnd. rewrite <- H. destruct (x w) as [[w1 t1] [a|e|]]; cbn [erase fst snd]; auto.
  rewrite <- I. now destruct (k a w1) as [[w2 t2] r].
Qed.
Lemma erase_quiet {A} (x : act A) w : erase (quiet x w) = x w.
Proof. unfold quiet. now destruct (x w). Qed.
Lemma erase_stage {A} msg fin (x : act A) w : erase (stage msg fin x w) = x w.
Proof. unfold stage, pbnd, say, quiet, pret. destruct (x w) as [w1 [a|e|]]; reflexivity. Qed.
Lemma erase_when b (x : pact unit) (x' : act unit) w : (forall w, erase (x w) = x' w) -> erase (pwhen b x w) = when b x' w.
Proof. intros H. unfold pwhen, when. destruct b; auto. Qed.

Section PROGRAMS.
Context {S : Type} (X : externals) (build : mesh -> outcome S) (surf : S -> surface) (to_mesh : unode S -> mesh)
  (prune : S -> outcome S) (line : surface -> nat -> outcome str) (listing : fs -> path -> list str) (K : kernel) (G : gdal) (stod : str -> outcome dbl).
Notation ortho := (p_ortho X build surf prune line listing K G stod).
Notation format := (p_format X build surf to_mesh prune line listing).

Lemma erase_read p f w : erase (p_read_scene X build listing p f w) = read_scene X build listing p f w.
Proof. unfold p_read_scene. now destruct (read_scene X build listing p f w). Qed.
Lemma erase_input p f pr g t w : erase (p_input_scene X build surf prune line listing p f pr g t w) = input_scene X build surf prune line listing p f pr g t w.
Proof.
  apply erase_pbnd; [apply erase_read|]. intros s w1. apply erase_pbnd; [apply erase_quiet|]. intros s' w2. apply erase_pbnd; [|reflexivity].
  intros w3. apply erase_when. intros w4. apply erase_stage.
Qed.
Lemma erase_body a w : erase (p_ortho_body X build surf prune line listing K G a w) = ortho_body X build surf prune line listing K G a w.
Proof.
  apply erase_pbnd; [apply erase_input|]. intros s w1. cbv zeta. apply erase_when. intros w2. apply erase_pbnd; [apply erase_stage|]. intros l w3.
  apply erase_pbnd; [apply erase_stage|]. intros _ w4. apply erase_pbnd; [intros w5; apply erase_when; intros; apply erase_stage|]. intros _ w5.
  apply erase_when. intros w6. apply erase_pbnd; [apply erase_stage|]. intros rs w7. apply erase_stage.
Qed.
Lemma erase_finish r : fst (p_finish r) = finish (erase r).
Proof. destruct r as [[w t] [u|e|]]; reflexivity. Qed.
Lemma ortho_args_scene m a : ortho_args stod m = Ok a -> exists s, arg_string m k_scene = Ok s /\ oa_path a = scene_path s.
Proof.
  unfold ortho_args. intros H. do 11 inv_bind H. apply Ok_inj in H. subst a. eauto.
Qed.
Lemma escape_is s : escape s = concat (map (fun c => if Ascii.eqb c "034" then ["&"; c]%char else if Ascii.eqb c "&" then ["&"; c]%char else [c]) s).
Proof.
  induction s as [|c s IH]; cbn [escape map concat]; auto. rewrite IH. destruct (Ascii.eqb c "034"); cbn [orb app]; auto. destruct (Ascii.eqb c "&"); reflexivity.
Qed.
Lemma quoted_is s : quoted s = in_quotes s.
Proof. unfold quoted, in_quotes. cbv zeta. now rewrite escape_is. Qed.
Lemma bool_is b : print_bool b = true_false b.
Proof. now destruct b. Qed.
Lemma greeting_is s a : m_parsing ++ m_done ++ ortho_echo s a ++ nl = ortho_greeting s a.
Proof.
  unfold ortho_echo, ortho_greeting, lines, row. cbn [map concat]. rewrite !bool_is, quoted_is.
  change (lit "Parsing arguments... Done.") with (m_parsing ++ hdr "Done."). unfold m_done, nl. change [newline] with [ch_nl]. change lit with hdr. cbn [app]. rewrite <- !app_assoc. reflexivity.
Qed.
Lemma format_greeting_is s o a : m_parsing ++ m_done ++ format_echo (Some (s, o, a)) ++ nl = format_greeting s o a.
Proof.
  unfold format_echo, format_greeting, lines, row. cbn [map concat]. rewrite !bool_is, !quoted_is.
  change (lit "Parsing arguments... Done.") with (m_parsing ++ hdr "Done."). unfold m_done, nl. change [newline] with [ch_nl]. change lit with hdr. cbn [app]. rewrite <- !app_assoc. reflexivity.
Qed.

(** what the program does and how it ends is what [Cli] says: every theorem on it applies *)
Theorem C99_ortho_same m w : fst (ortho m w) = ortho_main X build surf prune line listing K G stod (PArgs m) w.
Proof.
  unfold p_ortho. rewrite erase_finish. cbn [ortho_main]. f_equal. unfold p_ortho_args, pbnd at 1 2. unfold stage, pbnd at 1 2 3, say, quiet, lift, pret. unfold bnd.
  destruct (ortho_args stod m) as [a|e|] eqn:E; cbn [fst snd erase app]; auto.
  destruct (ortho_args_scene m a E) as (s & -> & _). unfold pbnd. cbn [app]. rewrite <- erase_body.
  now destruct (p_ortho_body _ _ _ _ _ _ _ _ a w) as [[w1 t1] r].
Qed.

(** ** orthoproject *)
Definition warns (w : world) (p : path) (fmt : str) : str :=
  match scene_handler_named p read_modes fmt with Ok h => read_says X (w_fs w) h | _ => [] end.
Lemma duals_text g x w : text (pwhen g (stage m_duals m_sdone x) w) =
  if_ g (m_duals ++ match snd (x w) with Ok _ => m_sdone | _ => [] end).
Proof. destruct g; auto. cbn [pwhen if_]. unfold stage, pbnd, say, quiet, pret, text. destruct (x w) as [w1 [a|e|]]; cbn [fst snd]; now rewrite ?app_nil_r. Qed.
Lemma stage_run {A} msg fin (x : act A) w : stage msg fin x w =
  match x w with (w, Ok a) => (w, msg ++ fin, Ok a) | (w, Throw e) => (w, msg, Throw e) | (w, UB) => (w, msg, UB) end.
Proof. unfold stage, pbnd, say, quiet, pret. destruct (x w) as [w1 [a|e|]]; now rewrite ?app_nil_r. Qed.

Lemma given_run m a s w : ortho_given stod m a -> word m "<scene>" s ->
  ortho m w = p_finish (let '(w1, t, r) := p_ortho_body X build surf prune line listing K G a w in (w1, ortho_greeting s a ++ t, r)).
Proof.
  intros H W. apply C74_arguments in H. assert (arg_string m k_scene = Ok s) as E by (apply arg_string_Ok; exact W).
  unfold p_ortho, p_ortho_args. rewrite <- greeting_is. unfold pbnd at 1 2. rewrite stage_run. unfold lift at 1. rewrite H. unfold pbnd at 1. unfold quiet, lift. rewrite E. unfold pbnd, say, pret. cbn [app]. rewrite app_nil_r.
  destruct (p_ortho_body _ _ _ _ _ _ _ _ a w) as [[w1 t1] r]. rewrite <- !app_assoc. reflexivity.
Qed.

Lemma bnd_stop {A B} (x : act A) (k : A -> act B) w w' r : bnd x k w = (w', r) ->
  (exists e, x w = (w', Throw e) /\ r = Throw e) \/ (x w = (w', UB) /\ r = UB) \/ exists a w1, x w = (w1, Ok a) /\ k a w1 = (w', r).
Proof. unfold bnd. destruct (x w) as [w1 [a|e|]]; intros E; [right; right; eauto|left; exists e; split; congruence|right; left; split; congruence]. Qed.
Lemma each_shapes dir labels l : forall w w' r, each (fun fp => bnd (vector_write K G (path_join dir (fp_name fp ++ e_shp)) labels fp) (fun _ => write_text (path_join dir (fp_name fp ++ e_txt)) (attributes K fp))) l w = (w', r) ->
  exists k V, w_vectors w' = w_vectors w ++ V /\ w_rasters w' = w_rasters w /\ Forall2 (fun fp e => shape_in K G dir labels (fp_name fp) fp e) (firstn k l) V.
Proof.
  induction l as [|fp l IH]; intros w w' r E; cbn [each] in E.
  - unfold ret in E. injection E as <- _. exists 0, []. rewrite app_nil_r. cbn [firstn]. auto.
  - destruct (vector_write_effect K G (path_join dir (fp_name fp ++ e_shp)) labels fp w) as (_ & B & C). unfold bnd at 1 2 in E.
    destruct (vector_write K G _ labels fp w) as [w1 [[]|e|]]; cbn [fst snd] in B, C.
    + destruct C as (ly & C & O). unfold write_text at 1, on_fs at 1 in E. destruct (IH _ _ _ E) as (k & V & V1 & V2 & V3). cbn [w_vectors w_rasters] in V1, V2.
      exists (Datatypes.S k), ((path_join dir (fp_name fp ++ e_shp), ly) :: V). split; [rewrite V1, C, <- app_assoc; reflexivity|]. split; [congruence|]. cbn [firstn]. constructor; auto. split; auto.
    + injection E as <- _. exists 0, []. rewrite app_nil_r. cbn [firstn]. auto.
    + injection E as <- _. exists 0, []. rewrite app_nil_r. cbn [firstn]. auto.
Qed.
Lemma prints_effect root l labels w w' r : save_building_prints K G root l labels w = (w', r) ->
  exists k V, w_vectors w' = w_vectors w ++ V /\ w_rasters w' = w_rasters w /\ Forall2 (fun fp e => shape_in K G (path_join root (lit "vectors")) labels (fp_name fp) fp e) (firstn k l) V.
Proof.
  unfold save_building_prints, bnd at 1, on_fs. destruct (create_directory _ _) as [f [[]|e|]]; intros E.
  - apply each_shapes in E. exact E.
  - injection E as <- _. exists 0, []. rewrite app_nil_r. cbn [firstn w_vectors w_rasters]. auto.
  - injection E as <- _. exists 0, []. rewrite app_nil_r. cbn [firstn w_vectors w_rasters]. auto.
Qed.
Lemma each_images dir px l rs : Forall2 (fun fp r => raster_of doubles K fp px = Ok r) l rs ->
  forall w w' o, each (fun r => raster_write G (path_join dir (r_name doubles r ++ e_tiff)) r) rs w = (w', o) ->
  exists k R, w_rasters w' = w_rasters w ++ R /\ w_vectors w' = w_vectors w /\ Forall2 (fun fp e => image_in K G dir px (fp_name fp) fp e) (firstn k l) R.
Proof.
  intros F. induction F as [|fp r l rs O F IH]; intros w w' o E; cbn [each] in E.
  - unfold ret in E. injection E as <- _. exists 0, []. rewrite app_nil_r. cbn [firstn]. auto.
  - destruct (raster_write_effect G (path_join dir (r_name doubles r ++ e_tiff)) r w) as (_ & B & C). unfold bnd at 1 in E.
    destruct (raster_write G _ r w) as [w1 [[]|e|]]; cbn [fst snd] in B, C.
    + destruct C as (d & C & St). destruct (IH _ _ _ E) as (k & R & R1 & R2 & R3).
      exists (Datatypes.S k), ((path_join dir (r_name doubles r ++ e_tiff), d) :: R). split; [rewrite R1, C, <- app_assoc; reflexivity|]. split; [congruence|]. cbn [firstn]. constructor; auto.
      split; [cbn [fst]; now rewrite <- (raster_name K _ _ _ O)|eauto].
    + injection E as <- _. exists 0, []. rewrite app_nil_r. cbn [firstn]. auto.
    + injection E as <- _. exists 0, []. rewrite app_nil_r. cbn [firstn]. auto.
Qed.
Lemma rasters_effect root l rs px w w' o : rasterize_scene doubles K l px = Ok rs -> save_building_rasters G root rs w = (w', o) ->
  exists k R, w_rasters w' = w_rasters w ++ R /\ w_vectors w' = w_vectors w /\ Forall2 (fun fp e => image_in K G (path_join root (lit "rasters")) px (fp_name fp) fp e) (firstn k l) R.
Proof.
  intros O. apply Props_cli.omapM_Forall2 in O. unfold save_building_rasters, bnd at 1, on_fs. destruct (create_directory _ _) as [f [[]|e|]]; intros E.
  - apply (each_images _ px l rs O) in E. exact E.
  - injection E as <- _. exists 0, []. rewrite app_nil_r. cbn [firstn w_vectors w_rasters]. auto.
  - injection E as <- _. exists 0, []. rewrite app_nil_r. cbn [firstn w_vectors w_rasters]. auto.
Qed.
Lemma sum_stop root name l ras px w w' r : save_scene_prints K G root name l ras px w = (w', r) -> r <> Ok tt ->
  exists Vs, w_vectors w' = w_vectors w ++ Vs /\ length Vs <= 1 /\ w_rasters w' = w_rasters w.
Proof.
  intros E N. unfold save_scene_prints in E. unfold bnd at 1, lift at 1 in E. destruct (foot_sum K l) as [fp|e|]; [|injection E as <- <-; exists []; rewrite app_nil_r; auto|injection E as <- <-; exists []; rewrite app_nil_r; auto].
  unfold bnd at 1 in E. destruct (vector_write_effect K G (path_join root (name ++ e_shp)) false fp w) as (_ & B & C).
  destruct (vector_write K G _ false fp w) as [w1 [[]|e|]]; cbn [fst snd] in B, C; [|injection E as <- <-; exists []; rewrite app_nil_r; auto|injection E as <- <-; exists []; rewrite app_nil_r; auto].
  destruct C as (ly & C & _). exists [(path_join root (name ++ e_shp), ly)]. cbn [length]. destruct ras; cbn [when] in E; [|unfold ret in E; congruence].
  unfold bnd, lift in E. destruct (raster_of doubles K fp px) as [x|e|]; [|injection E as <- <-; auto|injection E as <- <-; auto].
  destruct (raster_write_effect G (path_join root (name ++ e_tiff)) x w1) as (_ & B' & C'). rewrite E in B', C'. cbn [fst snd] in B', C'. destruct r as [[]|e|]; [congruence| |]; rewrite B', C'; auto.
Qed.
Lemma duals_keep root (s : scene S) w : let w' := fst (save_building_duals surf line root s w) in w_vectors w' = w_vectors w /\ w_rasters w' = w_rasters w.
Proof.
  cbv zeta. unfold save_building_duals. set (R := fun a b => w_vectors b = w_vectors a /\ w_rasters b = w_rasters a).
  assert (forall a b c, R a b -> R b c -> R a c) as T by (intros a b c [] []; split; congruence). assert (forall a, R a a) as Rf by (split; auto).
  apply (keeps_bnd R); auto.
  - intros x. unfold on_fs. destruct (create_directory _ _) as [f r]. split; auto.
  - intros _. apply keeps_each; auto. intros u _. apply keeps_bnd; auto.
Qed.

Lemma body_story a w : let '(w', t, r) := p_ortho_body X build surf prune line listing K G a w in
  let wn := warns w (oa_path a) (oa_format a) in
  match r with
  | Ok _ => t = wn ++ ortho_messages (oa_graphs a) (oa_save a) (oa_sum a) (rasterizing a)
  | _ => exists u, t = wn ++ u /\ stopped X build surf prune listing K G a w w' u
  end.
Proof.
  unfold p_ortho_body, p_input_scene. unfold pbnd at 1 2. unfold p_read_scene. fold (warns w (oa_path a) (oa_format a)).
  pose proof (read_scene_keeps X build listing (oa_path a) (oa_format a) w) as Kw.
  destruct (read_scene X build listing (oa_path a) (oa_format a) w) as [w1 [s0|e|]] eqn:Rd; cbn [fst] in Kw; subst w1;
    [|exists []; rewrite app_nil_r; split; [auto|now constructor]|exists []; rewrite app_nil_r; split; [auto|now constructor]].
  unfold pbnd at 1, quiet, lift at 1. destruct (if oa_prune a then _ else _) as [s|e|] eqn:Pr;
    [|exists []; split; [auto|now constructor]|exists []; split; [auto|now constructor]].
  assert (scene_of X build prune listing (w_fs w) (oa_path a) (oa_format a) (oa_prune a) (oa_terrain a) s) as Sc.
  { unfold read_scene in Rd. change read_modes with [(lit "read", true)] in Rd. destruct (scene_handler_named _ _ _) as [h|e|] eqn:Hh; [|discriminate|discriminate]. destruct (handler_named_fields _ _ _ _ Hh) as [_ Hm]. rewrite Hm in Rd. exists h, (location (oa_path a)), s0. split; auto. split; [now apply resolves_location|]. split; [congruence|]. destruct (oa_prune a); [auto|congruence]. }
  unfold pbnd at 1.
  assert (exists w1, w_vectors w1 = w_vectors w /\ w_rasters w1 = w_rasters w /\
    ((pwhen (oa_graphs a) (stage m_duals m_sdone (save_building_duals surf line (parent_path (oa_path a)) s)) w = (w1, ortho_messages (oa_graphs a) false false false, Ok tt)) \/
     (oa_graphs a = true /\ exists r, (r = UB \/ exists e, r = Throw e) /\ pwhen (oa_graphs a) (stage m_duals m_sdone (save_building_duals surf line (parent_path (oa_path a)) s)) w = (w1, m_duals, r)))) as (w1 & V1 & R1 & D).
  { unfold pwhen. destruct (oa_graphs a).
    - rewrite stage_run. pose proof (duals_keep (parent_path (oa_path a)) s w) as [Kv Kr]. destruct (save_building_duals _ _ _ _ _) as [w1 [[]|e|]]; cbn [fst] in *; exists w1; repeat (split; [assumption|]); [left; reflexivity|right; split; [auto|eauto 6]|right; split; [auto|eauto 6]].
    - exists w. split; auto. }
  destruct D as [D|(Gr & r & Hr & D)]; rewrite D.
  2:{ destruct Hr as [-> | [e ->]]; exists m_duals; (split; [now rewrite ?app_nil_r|apply in_duals; auto]). }
  unfold pret. rewrite app_nil_r. cbn [app]. set (M := ortho_messages (oa_graphs a) false false false).
  assert (forall sv su im, ortho_messages (oa_graphs a) sv su im = M ++ ortho_messages false sv su im) as HM.
  { intros. unfold M, ortho_messages. cbn [if_ app]. now rewrite app_nil_r. }
  set (wn := warns w (oa_path a) (oa_format a)).
  unfold pwhen at 1. destruct (oa_save a) eqn:Sv; [|unfold pret; rewrite app_nil_r; reflexivity].
  unfold pbnd at 1. rewrite stage_run. unfold lift at 1. destruct (orthoproject K surf s (oa_terrain a)) as [l|e|] eqn:Or.
  2,3: (exists (M ++ m_projecting); split; [now rewrite <- app_assoc|apply in_projecting; auto]).
  assert (projections_of X build surf prune listing K a w l) as Pj by (exists s; auto).
  unfold pbnd at 1. rewrite stage_run. destruct (save_building_prints _ _ _ _ _ _) as [w2 r2] eqn:Pp.
  destruct r2 as [[]|e|].
  2,3: (destruct (prints_effect _ _ _ _ _ _ Pp) as (k & V & V2 & R2 & F2); exists (M ++ m_projecting ++ m_done ++ m_vectors); split; [now rewrite <- !app_assoc|]; apply (in_vectors X build surf prune listing K G a w w2 l V k); auto; congruence).
  destruct (prints_complete _ _ _ _ _ _ _ Pp) as (V & V2 & R2 & F2). clear Pp.
  assert (exists w3 Vs Rs, w_vectors w3 = w_vectors w2 ++ Vs /\ w_rasters w3 = w_rasters w2 ++ Rs /\
    ((pwhen (oa_sum a) (stage m_sum m_done (save_scene_prints K G (parent_path (oa_path a)) (stem (oa_path a)) l (rasterizing a) (oa_pixel a))) w2 = (w3, if_ (oa_sum a) (m_sum ++ m_done), Ok tt) /\ length Vs = (if oa_sum a then 1 else 0) /\ length Rs = (if oa_sum a then if rasterizing a then 1 else 0 else 0)) \/
     (oa_sum a = true /\ length Vs <= 1 /\ Rs = [] /\ exists r, (r = UB \/ exists e, r = Throw e) /\ pwhen (oa_sum a) (stage m_sum m_done (save_scene_prints K G (parent_path (oa_path a)) (stem (oa_path a)) l (rasterizing a) (oa_pixel a))) w2 = (w3, m_sum, r)))) as (w3 & Vs & Rs & V3 & R3 & D').
  { unfold pwhen. destruct (oa_sum a).
    - rewrite stage_run. destruct (save_scene_prints _ _ _ _ _ _ _ _) as [w3 r3] eqn:Ss. destruct r3 as [[]|e|].
      + destruct (scene_prints_complete _ _ _ _ _ _ _ _ _ Ss) as (sum & v & R & _ & A & _ & B & C). exists w3, [v], R. split; auto. split; auto. left. split; auto. split; auto. destruct (rasterizing a); [destruct C as (e & -> & _)|subst R]; reflexivity.
      + destruct (sum_stop _ _ _ _ _ _ _ _ Ss ltac:(discriminate)) as (Vs & A & B & C). exists w3, Vs, []. rewrite app_nil_r. split; auto. split; auto. right. eauto 8.
      + destruct (sum_stop _ _ _ _ _ _ _ _ Ss ltac:(discriminate)) as (Vs & A & B & C). exists w3, Vs, []. rewrite app_nil_r. split; auto. split; auto. right. eauto 8.
    - exists w2, [], []. rewrite !app_nil_r. split; auto. }
  unfold pbnd at 1. destruct D' as [(D' & Lv & Lr)|(Su & Lv & -> & r & Hr & D')]; rewrite D'.
  2:{ destruct Hr as [-> | [e ->]]; (exists (M ++ m_projecting ++ m_done ++ m_vectors ++ m_done ++ m_sum); split; [now rewrite <- !app_assoc|]);
      (replace (M ++ _) with (ortho_messages (oa_graphs a) true false false ++ lit "Summing , rasterizing and saving scene projections... ") by (rewrite (HM true false false), <- app_assoc; reflexivity));
      apply (in_sum X build surf prune listing K G a w w3 l V Vs); auto; rewrite ?app_nil_r in *; try congruence; rewrite V3, V2, V1, app_assoc; reflexivity. }
  assert (w_vectors w3 = w_vectors w ++ V ++ Vs) as EV by (rewrite V3, V2, V1, app_assoc; reflexivity).
  assert (w_rasters w3 = w_rasters w ++ Rs) as ER by congruence.
  assert (ortho_messages (oa_graphs a) true (oa_sum a) false = M ++ m_projecting ++ m_done ++ m_vectors ++ m_done ++ if_ (oa_sum a) (m_sum ++ m_done)) as EM.
  { rewrite HM. unfold ortho_messages. cbn [if_ app]. rewrite app_nil_r. reflexivity. }
  unfold pwhen. destruct (rasterizing a) eqn:Im.
  2:{ unfold pret. rewrite EM. rewrite <- !app_assoc, app_nil_r. reflexivity. }
  assert (wants_images a) as Wi. { unfold rasterizing, wants_images in *. destruct (deqb _ _); [discriminate|reflexivity]. }
  unfold pbnd at 1. rewrite stage_run. unfold lift at 1. destruct (rasterize_scene doubles K l (oa_pixel a)) as [rs|e|] eqn:Ras.
  2,3: (exists (ortho_messages (oa_graphs a) true (oa_sum a) false ++ m_rasterizing); split; [rewrite EM; now rewrite <- !app_assoc|]; apply (in_rasterizing X build surf prune listing K G a w w3 l V Vs Rs); auto).
  rewrite stage_run. destruct (save_building_rasters _ _ _ _) as [w4 r4] eqn:Sr. destruct (rasters_effect _ _ _ _ _ _ _ Ras Sr) as (k & R & A & B & C).
  destruct r4 as [[]|e|].
  2,3: (exists (ortho_messages (oa_graphs a) true (oa_sum a) false ++ (m_rasterizing ++ m_done) ++ m_rasters); split; [rewrite EM; now rewrite <- !app_assoc|]; apply (in_rasters X build surf prune listing K G a w w4 l V Vs Rs R k); auto; try congruence; rewrite A, ER, app_assoc; reflexivity).
  transitivity (wn ++ ortho_messages (oa_graphs a) true (oa_sum a) false ++ (m_rasterizing ++ m_done) ++ m_rasters ++ m_done).
  - rewrite EM. now rewrite <- !app_assoc.
  - f_equal. rewrite (HM true (oa_sum a) false), (HM true (oa_sum a) true), <- app_assoc. f_equal. unfold ortho_messages. cbn [if_ app]. rewrite app_nil_r, <- !app_assoc. reflexivity.
Qed.

(** *** A run without exception prints the greeting, possibly the warning, and one finished line for
    each thing asked for *)
Theorem C99_ortho_well m a s w w' t : ortho_given stod m a -> word m "<scene>" s -> ortho m w = (w', Exit 0 None, t) ->
  t = ortho_greeting s a ++ warns w (oa_path a) (oa_format a) ++ ortho_messages (oa_graphs a) (oa_save a) (oa_sum a) (rasterizing a).
Proof.
  intros H W. rewrite (given_run m a s w H W). pose proof (body_story a w) as B. destruct (p_ortho_body _ _ _ _ _ _ _ _ a w) as [[w1 t1] [[]|e|]]; cbn [p_finish]; intros E; try discriminate.
  injection E as <- <-. cbv zeta in B. now rewrite B.
Qed.
(** *** and a run with an exception says where it stopped: what was announced last, without "Done." *)
Theorem C99_ortho_stopped m a s w w' e t : ortho_given stod m a -> word m "<scene>" s -> ortho m w = (w', Exit 0 (Some e), t) ->
  exists u, t = ortho_greeting s a ++ warns w (oa_path a) (oa_format a) ++ u /\ stopped X build surf prune listing K G a w w' u.
Proof.
  intros H W. rewrite (given_run m a s w H W). pose proof (body_story a w) as B. destruct (p_ortho_body _ _ _ _ _ _ _ _ a w) as [[w1 t1] [[]|e1|]]; cbn [p_finish]; intros E; try discriminate.
  injection E as <- _ <-. destruct B as (u & -> & St). exists u. split; [reflexivity|exact St].
Qed.
Lemma last_app_ne {A} (x y : list A) d : y <> [] -> last (x ++ y) d = last y d.
Proof. intros N. destruct (exists_last N) as (b & z & ->). rewrite app_assoc, !last_last. reflexivity. Qed.
Lemma messages_end g sv su im : g || sv = true -> last (ortho_messages g sv su im) "x"%char = newline.
Proof. destruct g, sv, su, im; intros E; try discriminate; vm_compute; reflexivity. Qed.
Lemma stopped_end a w w' u : stopped X build surf prune listing K G a w w' u -> u = [] \/ last u "x"%char = " "%char.
Proof.
  intros [ ]; [left; reflexivity|right..].
  - reflexivity.
  - rewrite last_app_ne by discriminate. reflexivity.
  - rewrite last_app_ne by discriminate. rewrite last_app_ne by discriminate. reflexivity.
  - rewrite last_app_ne by discriminate. reflexivity.
  - rewrite last_app_ne by discriminate. reflexivity.
  - rewrite last_app_ne by discriminate. rewrite last_app_ne by discriminate. reflexivity.
Qed.
(** *** so, when anything is to be saved, the status does not tell a failure (C73) but the standard
    output does: the run ended well exactly when every announced line is finished and all are there *)
Theorem C99_tells m a s w w' e t : ortho_given stod m a -> word m "<scene>" s -> oa_graphs a || oa_save a = true -> ortho m w = (w', Exit 0 e, t) ->
  (e = None <-> t = ortho_greeting s a ++ warns w (oa_path a) (oa_format a) ++ ortho_messages (oa_graphs a) (oa_save a) (oa_sum a) (rasterizing a)).
Proof.
  intros H W Sv E. split.
  - intros ->. now apply (C99_ortho_well m a s w w' t).
  - intros ->. destruct e as [e|]; auto. exfalso. destruct (C99_ortho_stopped m a s w w' e _ H W E) as (u & Eu & St). apply app_inv_head, app_inv_head in Eu.
    pose proof (messages_end _ _ (oa_sum a) (rasterizing a) Sv) as L. rewrite Eu in L. destruct (stopped_end _ _ _ _ St) as [-> | L']; [discriminate|]. rewrite L in L'. discriminate.
Qed.
(** without 'save' and dual graphs it does not *)
(** *** arguments refused by the program: one unfinished line *)
Theorem C99_ortho_arguments m w : (forall s, stod s <> UB) -> (forall a, ~ ortho_given stod m a) -> exists e, ortho m w = (w, Exit 0 (Some e), lit "Parsing arguments... ").
Proof.
  intros U N. unfold p_ortho, p_ortho_args, pbnd at 1 2. rewrite stage_run. unfold lift at 1. destruct (ortho_args stod m) as [a|e|] eqn:E.
  - exfalso. apply (N a). now apply C74_arguments.
  - exists e. reflexivity.
  - exfalso. now apply (ortho_args_cases stod m U).
Qed.

(** *** The warning *)
Lemma warns_two w p f : warns w p f = [] \/ warns w p f = epsg_warning.
Proof.
  assert (forall d, epsg_says X d = [] \/ epsg_says X d = epsg_warning) as E.
  { intros d. unfold epsg_says. destruct (let* r := child d k_root in child (x_kids r) k_epsg) as [e|e|]; auto. destruct (x_text e) as [t|]; auto. destruct (text_unsigned X t); auto. }
  assert (forall h d b, get_scene_says X h d b = [] \/ get_scene_says X h d b = epsg_warning) as E'.
  { intros h d b. unfold get_scene_says. destruct (if b then _ else _); auto. }
  unfold warns. destruct (scene_handler_named p read_modes f) as [h|e|]; auto. unfold read_says. destruct (sh_fmt h); auto.
  - destruct (let* t := t3ds_make X _ _ _ in _) as [[t d]|e|]; auto.
  - destruct (let* t := t3ds_make X _ _ _ in _) as [[t d]|e|]; auto.
Qed.
Theorem C99_warning_none w p f : f = lit "OFF" \/ f = lit "OBJ" -> warns w p f = [].
Proof.
  intros [-> | ->]; unfold warns, scene_handler_named.
  - change (scene_format (lit "OFF")) with (Ok off). cbn [bind]. unfold scene_handler_make. cbn [bind]. reflexivity.
  - change (scene_format (lit "OBJ")) with (Ok obj). cbn [bind]. unfold scene_handler_make. destruct (check_extension p obj); reflexivity.
Qed.
Lemma epsg_says_iff d : (exists n, tree_epsg X d = Ok n) ->
  (epsg_says X d = epsg_warning <-> exists e, reach d ["Chantier_Bati3D"; "Code_ESPG_horizontal"]%string e /\ forall t, elem_text e = Some t -> text_unsigned X t = None).
Proof.
  intros (n & H). unfold tree_epsg in H. inv_bind H. inv_bind H. rename a into r, a0 into e. clear H.
  assert (reach d ["Chantier_Bati3D"; "Code_ESPG_horizontal"]%string e) as Re. { apply reach_cons; [discriminate|]. exists r. split; [exact E|]. now apply child_Ok. }
  unfold epsg_says. change k_root with (lit "Chantier_Bati3D") in *. change k_epsg with (lit "Code_ESPG_horizontal") in *. rewrite E. cbn [bind]. rewrite E0.
  assert (elem_text e = x_text e) as Et by now destruct e. rewrite <- Et. split.
  - intros H. exists e. split; auto. intros t T. rewrite T in H. destruct (text_unsigned X t); [discriminate|auto].
  - intros (e' & Re' & H). rewrite <- (reach_fun _ _ _ _ Re Re') in H. destruct (elem_text e) as [t|]; [|reflexivity]. rewrite (H t eq_refl). reflexivity.
Qed.
(** a scene read with its tree file: the warning is printed exactly when the code of the
    projection system is not a number *)
Theorem C99_warning w p s b h t d : b = true /\ h = mkSceneH p [(lit "read", true)] t3ds_xml \/ b = false /\ h = mkSceneH p [(lit "read", true)] t3ds ->
  scene_handler_named p [(lit "read", true)] (if b then lit "3DS XML" else lit "3DS") = Ok h ->
  t3ds_make X (w_fs w) p [(lit "read", true)] = Ok t -> tree_make X (w_fs w) (xml_path p) = Ok d -> t3ds_get_scene_tree X build t d b = Ok s ->
  (warns w p (if b then lit "3DS XML" else lit "3DS") = epsg_warning <->
   exists e, reach d ["Chantier_Bati3D"; "Code_ESPG_horizontal"]%string e /\ forall t, elem_text e = Some t -> text_unsigned X t = None).
Proof.
  intros Hb Hn Ht Hd Hs. unfold warns. change read_modes with [(lit "read", true)]. rewrite Hn. 
  assert (read_says X (w_fs w) h = get_scene_says X t d b) as ->.
  { unfold read_says. destruct Hb as [[-> ->]|[-> ->]]; cbn [sh_fmt sh_path sh_modes]; rewrite Ht; cbn [bind]; rewrite Hd; reflexivity. }
  unfold get_scene_says, t3ds_get_scene_tree in *. destruct b.
  - inv_bind Hs. rewrite E. cbn [bind]. inv_bind Hs. rewrite E0. cbn [bind]. inv_bind Hs. rewrite E1. cbn [bind]. inv_bind Hs. rewrite E2. cbn [bind]. inv_bind Hs. rewrite E3. cbn [bind]. inv_bind Hs.
    apply epsg_says_iff. eauto.
  - inv_bind Hs. rewrite E. cbn [bind]. inv_bind Hs. rewrite E0. cbn [bind]. inv_bind Hs. rewrite E1. cbn [bind]. inv_bind Hs. apply epsg_says_iff. eauto.
Qed.
(** no warning without a tree file *)
Theorem C99_warning_no_tree w p f : (forall d, tree_make X (w_fs w) (xml_path p) <> Ok d) -> warns w p f = [].
Proof.
  intros N. unfold warns. destruct (scene_handler_named p read_modes f) as [h|e|] eqn:E; auto.
  assert (sh_path h = p) as P. { unfold scene_handler_named, scene_handler_make in E. inv_bind E. inv_bind E. apply Ok_inj in E. now subst h. }
  unfold read_says. rewrite P. destruct (t3ds_make X (w_fs w) p (sh_modes h)) as [t|e|]; cbn [bind]; [|destruct (sh_fmt h); reflexivity..].
  destruct (tree_make X (w_fs w) (xml_path p)) as [d|e|] eqn:T; [now destruct (N d)|destruct (sh_fmt h); reflexivity..].
Qed.

(** ** cityformat *)
Theorem C99_format_same m w : fst (format m w) = fst (format_main X build surf to_mesh prune line listing (PArgs m) w).
Proof.
  unfold p_format. rewrite erase_finish. cbn [format_main].
  assert (erase (pbnd (p_format_args m) (p_format_body X build surf to_mesh prune line listing) w) =
          bnd (lift (format_args m)) (fun a => bnd (format_body X build surf to_mesh prune line listing a) (fun _ => ret tt)) w) as ->.
  { unfold p_format_args, pbnd at 1 2. unfold quiet at 1, lift at 1. unfold bnd at 1, lift. unfold format_args.
    destruct (arg_bool m k_formats) as [b|e|] eqn:B; cbn [bind]; auto. unfold pbnd at 1. rewrite stage_run. unfold lift.
    assert (format_args m = (if b then Ok None else let* p := arg_string m k_scene in let* f := arg_string m k_infmt in let* prune := arg_bool m k_prune in let* graphs := arg_bool m k_graphs in let* terrain := arg_bool m k_terrain in let* o := arg_string m k_path in let* of := arg_string m k_outfmt in Ok (Some (mkFormat (scene_path p) f prune graphs terrain (path_of o) of)))) as FA by (unfold format_args; rewrite B; reflexivity).
    unfold format_args in FA. rewrite B in FA. cbn [bind] in FA.
    destruct b.
    - cbn [bind]. unfold pbnd, quiet, say, pret. cbn [app]. reflexivity.
    - destruct (arg_string m k_scene) as [sc|e|]; cbn [bind]; auto. destruct (arg_string m k_infmt) as [f|e|]; cbn [bind]; auto. destruct (arg_bool m k_prune) as [pr|e|]; cbn [bind]; auto.
      destruct (arg_bool m k_graphs) as [gr|e|]; cbn [bind]; auto. destruct (arg_bool m k_terrain) as [te|e|]; cbn [bind]; auto. destruct (arg_string m k_path) as [o|e|]; cbn [bind]; auto. destruct (arg_string m k_outfmt) as [ofm|e|]; cbn [bind]; auto.
      unfold pbnd at 1, quiet at 1. unfold pbnd at 1, say at 1, pret at 1. cbn [app]. set (a := mkFormat _ _ _ _ _ _ _).
      transitivity (erase (p_format_body X build surf to_mesh prune line listing (Some a) w)); [destruct (p_format_body _ _ _ _ _ _ _ _ w) as [[w1 t1] r]; reflexivity|].
      unfold p_format_body, format_body. rewrite (erase_pbnd _ _ (input_scene X build surf prune line listing (fa_path a) (fa_format a) (fa_prune a) (fa_graphs a) (fa_terrain a)) (fun s => write_scene to_mesh (fa_out a) (fa_outfmt a) s)).
      + unfold bnd, ret. destruct (input_scene _ _ _ _ _ _ _ _ _ _ _ _) as [w1 [s|e|]]; auto. destruct (write_scene _ _ _ _ _) as [w2 [[]|e|]]; auto.
      + intros. apply erase_input.
      + intros. apply erase_quiet. }
  unfold bnd, lift, ret. destruct (format_args m) as [a|e|]; cbn [finish fst]; auto. destruct (format_body _ _ _ _ _ _ _ a w) as [w1 [t|e|]]; reflexivity.
Qed.
Lemma input_story p fmt pr g te w : let '(w', t, r) := p_input_scene X build surf prune line listing p fmt pr g te w in
  (exists s, r = Ok s /\ t = warns w p fmt ++ ortho_messages g false false false /\ scene_of X build prune listing (w_fs w) p fmt pr te s) \/
  ((r = UB \/ exists e, r = Throw e) /\ ((t = warns w p fmt /\ w' = w) \/ (g = true /\ t = warns w p fmt ++ lit "Saving brick duals... "))).
Proof.
  destruct (p_input_scene X build surf prune line listing p fmt pr g te w) as [[w' t] r] eqn:E.
  assert (input_scene X build surf prune line listing p fmt pr g te w = (w', r)) as I. { rewrite <- erase_input, E. reflexivity. }
  unfold p_input_scene in E. unfold pbnd at 1, p_read_scene in E. fold (warns w p fmt) in E. pose proof (read_scene_keeps X build listing p fmt w) as Kw.
  destruct (read_scene X build listing p fmt w) as [w1 [s0|e|]]; cbn [fst] in Kw; subst w1; [|injection E as <- <- <-; right; split; [right; exists e; reflexivity|left; split; reflexivity]|injection E as <- <- <-; right; auto].
  unfold pbnd at 1, quiet, lift at 1 in E. destruct (if pr then _ else _) as [s|e|]; [|injection E as <- <- <-; rewrite !app_nil_r; right; split; [right; exists e; reflexivity|left; split; reflexivity]|injection E as <- <- <-; rewrite !app_nil_r; right; auto].
  unfold pbnd at 1, pwhen in E. destruct g.
  - rewrite stage_run in E. destruct (save_building_duals _ _ _ _ _) as [w1 [[]|e|]].
    + unfold pret in E. injection E as <- <- <-. left. exists s. split; auto. split; [rewrite ?app_nil_r; reflexivity|]. exact (proj1 (input_complete X build surf prune line listing _ _ _ _ _ _ _ _ I)).
    + injection E as <- <- <-. right. split; [eauto|]. right. auto.
    + injection E as <- <- <-. right. split; [eauto|]. right. auto.
  - unfold pret in E. injection E as <- <- <-. left. exists s. split; auto. split; [rewrite ?app_nil_r; reflexivity|]. exact (proj1 (input_complete X build surf prune line listing _ _ _ _ _ _ _ _ I)).
Qed.
Lemma format_given_says m a s o w : format_given m a -> word m "<scene>" s -> word m "<path>" o ->
  format m w = p_finish (let '(w1, t, r) := p_format_body X build surf to_mesh prune line listing (Some a) w in (w1, format_greeting s o a ++ t, r)).
Proof.
  intros H W O. pose proof H as H'. apply C75_arguments in H. assert (arg_string m k_scene = Ok s) as E by (apply arg_string_Ok; exact W). assert (arg_string m k_path = Ok o) as E' by (apply arg_string_Ok; exact O).
  assert (arg_bool m k_formats = Ok false) as F by (apply arg_bool_Ok; exact (fg_formats m a H')).
  unfold p_format, p_format_args. rewrite <- format_greeting_is. unfold pbnd at 1 2. unfold quiet at 1, lift at 1. rewrite F. unfold pbnd at 1. rewrite stage_run. unfold lift at 1. rewrite H. unfold pbnd at 1. unfold quiet, lift. rewrite E, E'. cbn [bind]. unfold pbnd at 1, say, pret. cbn [app]. rewrite app_nil_r.
  destruct (p_format_body _ _ _ _ _ _ _ (Some a) w) as [[w1 t1] r]. rewrite <- !app_assoc. reflexivity.
Qed.
(** a conversion, ended well or not *)
Theorem C99_format m a s o w w' e t : format_given m a -> word m "<scene>" s -> word m "<path>" o -> format m w = (w', Exit 0 e, t) ->
  let all := format_greeting s o a ++ warns w (fa_path a) (fa_format a) ++ if_ (fa_graphs a) (lines [lit "Saving brick duals...  Done."]) in
  t = all \/
  (e <> None /\ t = format_greeting s o a ++ warns w (fa_path a) (fa_format a) /\ w' = w) \/
  (e <> None /\ fa_graphs a = true /\ t = format_greeting s o a ++ warns w (fa_path a) (fa_format a) ++ lit "Saving brick duals... ").
Proof.
  intros H W O. rewrite (format_given_says m a s o w H W O). intros E all. unfold p_format_body, pbnd in E.
  pose proof (input_story (fa_path a) (fa_format a) (fa_prune a) (fa_graphs a) (fa_terrain a) w) as I.
  destruct (p_input_scene _ _ _ _ _ _ _ _ _ _ _ w) as [[w1 t1] r1]. destruct I as [(sc & -> & -> & _)|(Hr & I)].
  - left. unfold quiet in E. destruct (write_scene _ _ _ _ w1) as [w2 [[]|x|]]; cbn [p_finish] in E; try discriminate; injection E as _ _ <-; unfold all; rewrite app_nil_r; unfold ortho_messages; cbn [if_]; now rewrite app_nil_r.
  - right. assert (e <> None /\ t = format_greeting s o a ++ t1 /\ w' = w1) as (Ne & -> & ->).
    { destruct Hr as [-> | [x ->]]; cbn [p_finish] in E; [discriminate|]. injection E as <- <- <-. split; [discriminate|auto]. }
    destruct I as [[-> ->]|[Gr ->]]; [left|right]; auto.
Qed.
(** an exception while writing is not seen on the standard output: the scene was read (and its dual
    graphs saved), everything is printed as after a success *)
Theorem C99_format_hides m a s o w w' e t : format_given m a -> word m "<scene>" s -> word m "<path>" o -> format m w = (w', Exit 0 e, t) ->
  (exists w1 sc, input_scene X build surf prune line listing (fa_path a) (fa_format a) (fa_prune a) (fa_graphs a) (fa_terrain a) w = (w1, Ok sc)) ->
  t = format_greeting s o a ++ warns w (fa_path a) (fa_format a) ++ if_ (fa_graphs a) (lines [lit "Saving brick duals...  Done."]).
Proof.
  intros H W O E (w1 & sc & I). rewrite (format_given_says m a s o w H W O) in E. unfold p_format_body, pbnd in E.
  pose proof (input_story (fa_path a) (fa_format a) (fa_prune a) (fa_graphs a) (fa_terrain a) w) as J.
  pose proof (erase_input (fa_path a) (fa_format a) (fa_prune a) (fa_graphs a) (fa_terrain a) w) as Er. rewrite I in Er.
  destruct (p_input_scene _ _ _ _ _ _ _ _ _ _ _ w) as [[w2 t1] r1]. cbn [erase fst snd] in Er. injection Er as -> ->. destruct J as [(sc' & _ & -> & _)|([Hr|[x Hr]] & _)]; [|discriminate|discriminate].
  unfold quiet in E. destruct (write_scene _ _ _ _ w1) as [w3 [[]|x|]]; cbn [p_finish] in E; try discriminate; injection E as _ _ <-; rewrite app_nil_r; unfold ortho_messages; cbn [if_]; now rewrite app_nil_r.
Qed.
Theorem C99_formats m w : flag m "--formats" true -> format m w =
  (w, Exit 0 None, lines [lit "Parsing arguments... Done."; lit "Arguments:"; lit "  Possible formats: true"; []; lit "Possible formats are: 3DS XML, 3DS, OFF, OBJ"]).
Proof.
  intros H. assert (arg_bool m k_formats = Ok true) as F by (apply arg_bool_Ok; exact H). apply C75_arguments in H.
  unfold p_format, p_format_args, pbnd at 1 2. unfold quiet at 1, lift at 1. rewrite F. unfold pbnd at 1. rewrite stage_run. unfold lift. rewrite H. reflexivity.
Qed.
Theorem C99_format_arguments m w : flag m "--formats" false -> (forall a, ~ format_given m a) -> exists e, format m w = (w, Exit 0 (Some e), lit "Parsing arguments... ").
Proof.
  intros H N. assert (arg_bool m k_formats = Ok false) as F by (apply arg_bool_Ok; exact H).
  unfold p_format, p_format_args, pbnd at 1 2. unfold quiet at 1, lift at 1. rewrite F. unfold pbnd at 1. rewrite stage_run. unfold lift. destruct (format_args m) as [[a|]|e|] eqn:E.
  - exfalso. apply (N a). now apply C75_arguments.
  - exfalso. assert (flag m "--formats" true) as T by now apply C75_arguments. pose proof (gives_fun _ _ _ _ H T). discriminate.
  - exists e. reflexivity.
  - exfalso. now apply (format_args_cases m).
Qed.
End PROGRAMS.

(** ** What can be read off the greeting *)
Lemma quotes_end s : forall s' r r', (escape s ++ "034"%char :: r = escape s' ++ "034"%char :: r') -> s = s' /\ r = r'.
Proof.
  induction s as [|c s IH]; intros [|c' s'] r r' E; cbn [escape app] in E.
  - split; [reflexivity|congruence].
  - exfalso. destruct (Ascii.eqb_spec c' "034") as [->|N]; cbn [orb] in E; [discriminate|]. destruct (Ascii.eqb_spec c' "&") as [->|N']; cbn [app] in E; [discriminate|congruence].
  - exfalso. destruct (Ascii.eqb_spec c "034") as [->|N]; cbn [orb] in E; [discriminate|]. destruct (Ascii.eqb_spec c "&") as [->|N']; cbn [app] in E; [discriminate|congruence].
  - destruct (Ascii.eqb_spec c "034") as [C|N]; destruct (Ascii.eqb_spec c' "034") as [C'|N']; cbn [orb app] in E.
    + injection E as E1 E. destruct (IH _ _ _ E). split; congruence.
    + destruct (Ascii.eqb_spec c' "&"); cbn [app] in E; congruence.
    + destruct (Ascii.eqb_spec c "&"); cbn [app] in E; congruence.
    + destruct (Ascii.eqb_spec c "&") as [D|D], (Ascii.eqb_spec c' "&") as [D'|D']; cbn [app] in E; try congruence; injection E as E1 E; try (destruct (IH _ _ _ E); split; congruence).
Qed.
Lemma line_end (x x' : str) y y' : ~ In newline x -> ~ In newline x' -> x ++ newline :: y = x' ++ newline :: y' -> x = x' /\ y = y'.
Proof.
  revert x'. induction x as [|c x IH]; intros [|c' x'] N N' E; cbn [app] in E.
  - split; congruence.
  - exfalso. injection E as E _. apply N'. now left.
  - exfalso. injection E as E _. apply N. now left.
  - injection E as -> E. destruct (IH x') as [-> ->]; auto; intros I; [apply N|apply N']; now right.
Qed.
Definition nls (y : str) : nat := count_occ Ascii.ascii_dec y newline.
Lemma free_end (x x' : str) y y' : nls y = nls y' -> x ++ newline :: y = x' ++ newline :: y' -> x = x' /\ y = y'.
Proof.
  unfold nls. revert x'. induction x as [|c x IH]; intros [|c' x'] N E; cbn [app] in E.
  - split; congruence.
  - exfalso. injection E as _ E. rewrite E in N. rewrite count_occ_app in N. cbn [count_occ] in N. destruct (Ascii.ascii_dec newline newline); [lia|congruence].
  - exfalso. injection E as _ E. rewrite <- E in N. rewrite count_occ_app in N. cbn [count_occ] in N. destruct (Ascii.ascii_dec newline newline); [lia|congruence].
  - injection E as -> E. destruct (IH x' N E) as [-> ->]. auto.
Qed.

Lemma true_false_inj b b' : true_false b = true_false b' -> b = b'.
Proof. destruct b, b'; auto; discriminate. Qed.
Lemma true_false_line b : ~ In newline (true_false b).
Proof. destruct b; cbn; intuition discriminate. Qed.
Lemma nls_app x y : nls (x ++ y) = nls x + nls y.
Proof. apply count_occ_app. Qed.
Lemma nls_line x : ~ In newline x -> nls x = 0.
Proof. apply count_occ_not_In. Qed.
Lemma nls_lines l : Forall (fun x => ~ In newline x) l -> nls (lines l) = length l.
Proof.
  intros F. induction F as [|x l Hx F IH]; auto. unfold lines in *. cbn [map concat length]. rewrite <- app_assoc, !nls_app, (nls_line x Hx), IH. reflexivity.
Qed.
Lemma lines_cons x l : lines (x :: l) = x ++ newline :: lines l.
Proof. unfold lines. cbn [map concat]. now rewrite <- app_assoc. Qed.
(** one line with a title: what follows the title *)
Lemma titled (h x x' : str) l l' : ~ In newline h -> ~ In newline x -> ~ In newline x' -> lines ((h ++ x) :: l) = lines ((h ++ x') :: l') -> x = x' /\ lines l = lines l'.
Proof.
  intros H N N' E. rewrite !lines_cons, <- !app_assoc in E. apply app_inv_head in E. now apply line_end.
Qed.
Lemma titled_bool h b b' l l' : ~ In newline h -> lines ((h ++ true_false b) :: l) = lines ((h ++ true_false b') :: l') -> b = b' /\ lines l = lines l'.
Proof. intros H E. apply titled in E; auto using true_false_line. destruct E as [E E']. split; auto. now apply true_false_inj. Qed.
Lemma titled_path h s s' l l' : lines ((h ++ in_quotes s) :: l) = lines ((h ++ in_quotes s') :: l') -> s = s' /\ lines l = lines l'.
Proof.
  intros E. rewrite !lines_cons, <- !app_assoc in E. apply app_inv_head in E. rewrite <- !quoted_is in E. unfold quoted in E. cbn [app] in E. injection E as E. rewrite <- !app_assoc in E. cbn [app] in E.
  apply quotes_end in E. destruct E as [-> E]. split; auto. congruence.
Qed.
Lemma titled_free (h x x' : str) l l' : nls (lines l) = nls (lines l') -> lines ((h ++ x) :: l) = lines ((h ++ x') :: l') -> x = x' /\ lines l = lines l'.
Proof. intros N E. rewrite !lines_cons, <- !app_assoc in E. apply app_inv_head in E. now apply free_end. Qed.
Lemma no_line (h : string) : existsb (Ascii.eqb newline) (lit h) = false -> ~ In newline (lit h).
Proof.
  intros E I. rewrite <- Bool.not_true_iff_false in E. apply E. apply existsb_exists. exists newline. split; [exact I|apply Ascii.eqb_refl].
Qed.
Ltac oneline := apply no_line; vm_compute; reflexivity.
Lemma lines_same x l l' : lines (x :: l) = lines (x :: l') -> lines l = lines l'.
Proof. rewrite !lines_cons. intros E. apply app_inv_head in E. congruence. Qed.
Lemma line_app h (x : str) : ~ In newline h -> ~ In newline x -> ~ In newline (h ++ x).
Proof. intros H N I. apply in_app_or in I. tauto. Qed.

(** two runs of orthoproject that print the same greeting had the same arguments, whatever
    characters are in the path and in the format; the pixel size is printed with six digits *)
Theorem C99_echo s a s' a' : ortho_greeting s a = ortho_greeting s' a' ->
  s = s' /\ oa_format a = oa_format a' /\ oa_prune a = oa_prune a' /\ oa_cache a = oa_cache a' /\ oa_graphs a = oa_graphs a' /\ oa_terrain a = oa_terrain a' /\
  oa_save a = oa_save a' /\ oa_sum a = oa_sum a' /\ oa_labels a = oa_labels a' /\ rasterizing a = rasterizing a' /\ print_dbl (oa_pixel a) = print_dbl (oa_pixel a').
Proof.
  unfold ortho_greeting. intros E. apply lines_same in E. apply lines_same in E. apply titled_path in E. destruct E as [-> E].
  apply titled_free in E; [|rewrite !nls_lines; [reflexivity|repeat (constructor; [first [apply line_app; [oneline|first [apply true_false_line|exact (print_dbl_no_nl _)]]|intros []]|]); constructor..]].
  destruct E as [F E].
  apply titled_bool in E; [|oneline]. destruct E as [E1 E]. apply titled_bool in E; [|oneline]. destruct E as [E2 E]. apply titled_bool in E; [|oneline]. destruct E as [E3 E].
  apply titled_bool in E; [|oneline]. destruct E as [E4 E]. apply titled_bool in E; [|oneline]. destruct E as [E5 E]. apply titled_bool in E; [|oneline]. destruct E as [_ E].
  apply titled_bool in E; [|oneline]. destruct E as [E6 E]. apply titled_bool in E; [|oneline]. destruct E as [E7 E]. apply titled_bool in E; [|oneline]. destruct E as [E8 E].
  apply titled in E; [|oneline|exact (print_dbl_no_nl _)|exact (print_dbl_no_nl _)]. destruct E as [E9 _]. repeat (split; [reflexivity || assumption|]). assumption.
Qed.
(** cityformat prints two free texts: they can be told apart when they are single lines *)
Theorem C99_format_echo s o a s' o' a' : ~ In newline (fa_format a) -> ~ In newline (fa_format a') -> format_greeting s o a = format_greeting s' o' a' ->
  s = s' /\ o = o' /\ fa_format a = fa_format a' /\ fa_prune a = fa_prune a' /\ fa_terrain a = fa_terrain a' /\ fa_graphs a = fa_graphs a' /\ fa_outfmt a = fa_outfmt a'.
Proof.
  unfold format_greeting. intros N N' E. apply lines_same in E. apply lines_same in E. apply titled_path in E. destruct E as [-> E]. apply titled in E; [|oneline|auto|auto]. destruct E as [F E].
  apply titled_bool in E; [|oneline]. destruct E as [E1 E]. apply titled_bool in E; [|oneline]. destruct E as [E2 E]. apply titled_bool in E; [|oneline]. destruct E as [E3 E].
  apply titled_path in E. destruct E as [-> E]. apply titled_free in E; [|reflexivity]. destruct E as [E4 _]. repeat (split; [reflexivity || assumption|]). assumption.
Qed.
Theorem C99_format_echo_refuted : exists s o a s' o' a', format_greeting s o a = format_greeting s' o' a' /\ fa_format a <> fa_format a'.
Proof.
  set (mid := [newline] ++ lit "  Pruning faces: false" ++ [newline] ++ lit "  Taking care of terrain: false" ++ [newline] ++ lit "  Saving dual graphs: false" ++ [newline] ++ lit "  Output path: " ++ in_quotes (lit "o") ++ [newline] ++ lit "  Output format: ").
  exists (lit "s"), (lit "o"), (mkFormat [] (lit "OBJ") false false false [] (lit "OFF" ++ mid ++ lit "x")), (lit "s"), (lit "o"), (mkFormat [] (lit "OBJ" ++ mid ++ lit "OFF") false false false [] (lit "x")).
  split; [vm_compute; reflexivity|discriminate].
Qed.
(** non-trivial characters in the path *)
Example C99_echo_example : in_quotes (lit "a&b/" ++ "034"%char :: lit "c.obj") = "034"%char :: lit "a&&b/&" ++ "034"%char :: lit "c.obj" ++ ["034"%char].
Proof. reflexivity. Qed.

(** ** Help and version *)
Lemma ortho_says_is v argv : docopt_says ortho_usage v argv =
  match parse_argv (Datatypes.S (length argv)) argv ortho_o with
  | None => nl ++ ortho_usage ++ nl
  | Some l => if opt_set (lit "--help") l || opt_set (lit "-h") l then ortho_usage ++ nl else if opt_set (lit "--version") l then v ++ nl else match docopt ortho_usage argv with PExit _ => nl ++ ortho_usage ++ nl | PArgs _ => [] end
  end.
Proof. unfold docopt_says. rewrite ortho_pattern. reflexivity. Qed.
Lemma format_says_is v argv : docopt_says format_usage v argv =
  match parse_argv (Datatypes.S (length argv)) argv format_o with
  | None => nl ++ format_usage ++ nl
  | Some l => if opt_set (lit "--help") l || opt_set (lit "-h") l then format_usage ++ nl else if opt_set (lit "--version") l then v ++ nl else match docopt format_usage argv with PExit _ => nl ++ format_usage ++ nl | PArgs _ => [] end
  end.
Proof. unfold docopt_says. rewrite format_pattern. reflexivity. Qed.
Lemma flag_set is l n : Forall2 shows is l -> In (Flag n) l -> opt_set (lit n) is = true.
Proof.
  intros F J. destruct (opt_set (lit n) is) eqn:E; auto. exfalso. apply opt_set_names in E. apply E. rewrite (said_names is l n F). apply in_options. now left.
Qed.
Lemma flag_unset T argv is l n : reads T argv l -> Forall2 shows is l -> NoDup (map fst T) -> In (n, false) T -> ~ In (Flag n) l -> opt_set (lit n) is = false.
Proof.
  intros R F ND It J. apply opt_set_names. rewrite (said_names is l n F). rewrite in_options. intros [Q|[v Q]]; auto. pose proof (reads_kind _ _ _ R _ Q) as B. cbn in B. apply (one_kind T n false ND It) in B. discriminate.
Qed.
Lemma short_unset T argv is l : reads T argv l -> Forall2 shows is l -> ~ In "-h"%string (map fst T) -> opt_set (lit "-h") is = false.
Proof.
  intros R F N. apply opt_set_names. rewrite (shows_names is l F). intros I. apply in_map_iff in I. destruct I as (n & En & I). apply lit_inj in En. subst n.
  apply in_options in I. apply N. destruct I as [I|[v I]]; apply (reads_kind _ _ _ R) in I; cbn in I; now apply (in_map fst) in I.
Qed.

Section LINES.
Context {S : Type} (X : externals) (build : mesh -> outcome S) (surf : S -> surface) (to_mesh : unode S -> mesh)
  (prune : S -> outcome S) (line : surface -> nat -> outcome str) (listing : fs -> path -> list str) (K : kernel) (G : gdal) (stod : str -> outcome dbl) (version : str).
Notation ortho := (ortho_program X build surf prune line listing K G stod version).
Notation format := (format_program X build surf to_mesh prune line listing version).
Theorem C99_help argv l w :
  (reads ortho_table argv l -> In (Flag "--help") l -> ortho argv w = (w, Exit 0 None, ortho_usage ++ [newline])) /\
  (reads format_table argv l -> In (Flag "--help") l -> format argv w = (w, Exit 0 None, format_usage ++ [newline])).
Proof.
  split; intros R I.
  - unfold ortho_program. rewrite (C95_help argv l R) by now left. rewrite ortho_says_is. destruct (ortho_reads argv l R) as (is & -> & F). rewrite (flag_set is l _ F I). reflexivity.
  - unfold format_program. rewrite (C96_help argv l R) by now left. rewrite format_says_is. destruct (format_reads argv l R) as (is & -> & F). rewrite (flag_set is l _ F I). reflexivity.
Qed.
(** cityformat presents itself as orthoproject *)
Theorem C99_version argv l w : ~ In (Flag "--help") l -> In (Flag "--version") l ->
  (reads ortho_table argv l -> ortho argv w = (w, Exit 0 None, lit "orthoproject " ++ version ++ [newline])) /\
  (reads format_table argv l -> format argv w = (w, Exit 0 None, lit "orthoproject " ++ version ++ [newline])).
Proof.
  intros N I. split; intros R.
  - unfold ortho_program. rewrite (C95_help argv l R) by now right. rewrite ortho_says_is. destruct (ortho_reads argv l R) as (is & -> & F). rewrite (flag_set is l _ F I).
    rewrite (flag_unset _ _ _ _ _ R F (proj1 ortho_fine)) by (auto; cbn; tauto). rewrite (short_unset _ _ _ _ R F) by (cbn; intuition discriminate). cbn [orb]. unfold version_text. rewrite <- app_assoc. reflexivity.
  - unfold format_program. rewrite (C96_help argv l R) by now right. rewrite format_says_is. destruct (format_reads argv l R) as (is & -> & F). rewrite (flag_set is l _ F I).
    rewrite (flag_unset _ _ _ _ _ R F (proj1 format_fine)) by (auto; cbn; tauto). rewrite (short_unset _ _ _ _ R F) by (cbn; intuition discriminate). cbn [orb]. unfold version_text. rewrite <- app_assoc. reflexivity.
Qed.
(** a refused line: the usage, after an empty line *)
Theorem C99_refused argv w : (docopt ortho_usage argv = PExit (-1) -> ortho argv w = (w, Exit (-1) None, [newline] ++ ortho_usage ++ [newline])) /\
  (docopt format_usage argv = PExit (-1) -> format argv w = (w, Exit (-1) None, [newline] ++ format_usage ++ [newline])).
Proof.
  split; intros E.
  - unfold ortho_program. rewrite E, ortho_says_is. pose proof E as E'. rewrite ortho_docopt in E'. rewrite E. destruct (parse_argv _ _ _) as [l|]; [|reflexivity]. destruct (_ || _); [discriminate|]. destruct (opt_set _ l); [discriminate|reflexivity].
  - unfold format_program. rewrite E, format_says_is. pose proof E as E'. rewrite format_docopt in E'. rewrite E. destruct (parse_argv _ _ _) as [l|]; [|reflexivity]. destruct (_ || _); [discriminate|]. destruct (opt_set _ l); [discriminate|reflexivity].
Qed.
End LINES.

(** ** Examples *)
Definition p_ortho_ex (g : gdal) := p_ortho no_ext (fun _ => Ok plate) (fun s => s) (fun s => Ok s) (fun _ _ => Ok (lit "facet" ++ nl)) (fun _ _ => []) rects g stod_one.
Definition p_format_ex := p_format no_ext (fun _ => Ok plate) (fun s => s) (fun u => snd (mesh_set_name mesh_empty (u_name u))) (fun s => Ok s) (fun _ _ => Ok (lit "facet" ++ nl)) (fun _ _ => []).
(** GDAL without a driver for images *)
Definition gdal_no_tiff : gdal := mkGdal true false (fun _ => true) (fun _ => true) (fun _ => true) (fun _ => true) (fun _ => 4171%Z).
Definition greeted : str := ortho_greeting (lit "d/city.obj") ortho_a.
Example C99_example : ortho_given stod_one ortho_map ortho_a /\ word ortho_map "<scene>" (lit "d/city.obj") /\ oa_graphs ortho_a || oa_save ortho_a = true /\
  snd (fst (p_ortho_ex gdal_fine ortho_map start)) = Exit 0 None /\ snd (p_ortho_ex gdal_fine ortho_map start) = greeted ++
    lines [lit "Saving brick duals...  Done."; lit "Projecting... Done."; lit "Saving vector projections... Done."; lit "Summing , rasterizing and saving scene projections... Done."; lit "rasterizing projections... Done."; lit "Saving raster projections... Done."] /\
  snd (fst (p_ortho_ex gdal_no_tiff ortho_map start)) = Exit 0 (Some RuntimeError) /\ snd (p_ortho_ex gdal_no_tiff ortho_map start) = greeted ++
    lines [lit "Saving brick duals...  Done."; lit "Projecting... Done."; lit "Saving vector projections... Done."] ++ lit "Summing , rasterizing and saving scene projections... ".
Proof.
  split; [apply C74_arguments; vm_compute; reflexivity|]. split; [apply arg_string_Ok; vm_compute; reflexivity|]. split; [reflexivity|].
  split; [vm_compute; reflexivity|]. split; [vm_compute; reflexivity|]. split; vm_compute; reflexivity.
Qed.
(** a conversion that fails while writing, and one that does not, print the same *)
Example C99_format_example : let a fmt := mkFormat [lit "d"; lit "city.obj"] (lit "OBJ") true true false [lit "d"; lit "out"] fmt in
  format_given (format_map (lit "d/out") (lit "3DS")) (a (lit "3DS")) /\
  snd (fst (p_format_ex (format_map (lit "d/out") (lit "3DS")) start)) = Exit 0 (Some RuntimeError) /\
  snd (p_format_ex (format_map (lit "d/out") (lit "3DS")) start) = format_greeting (lit "d/city.obj") (lit "d/out") (a (lit "3DS")) ++ lines [lit "Saving brick duals...  Done."] /\
  snd (fst (p_format_ex (format_map (lit "d/out") (lit "OFF")) start)) = Exit 0 None /\
  snd (p_format_ex (format_map (lit "d/out") (lit "OFF")) start) = format_greeting (lit "d/city.obj") (lit "d/out") (a (lit "OFF")) ++ lines [lit "Saving brick duals...  Done."].
Proof. cbv zeta. split; [apply C75_arguments; vm_compute; reflexivity|]. repeat split; vm_compute; reflexivity. Qed.
