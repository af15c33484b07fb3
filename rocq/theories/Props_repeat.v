(** * C103: running a program again. *)
From Coq Require Import Strings.String.
From Verif Require Import Base Dbl Geom Decimal Shadow Streams Spec_shadow Spec_text Handlers Surface Projection Raster Ogr Spec_io Handlers_proofs Scenefile_proofs Cli Spec_cli Props_cli Spec_repeat.
From Verif Require Props_io Props_projection Props_convert.
From Verif Require Export Spec_repeat.
Import List.
Close Scope string_scope.
Open Scope nat_scope.
Open Scope list_scope.

(** ** What a run writes, and writing it again *)
Definition puts (f : fs) (L : list (path * str)) : fs := fold_left (fun f e => fs_set f (fst e) (File (snd e))) L f.
Lemma path_eqb_eq p q : path_eqb p q = true <-> p = q.
Proof. apply (list_eqb_spec _ str_eqb_eq). Qed.
Lemma set_other f p e q : q <> p -> fs_set f p e q = f q.
Proof. intros H. symmetry. exact (fs_set_other f p e q H). Qed.
Lemma puts_app f L M : puts f (L ++ M) = puts (puts f L) M.
Proof. apply fold_left_app. Qed.
Lemma puts_miss L : forall f q, ~ In q (map fst L) -> puts f L q = f q.
Proof.
  induction L as [|[p c] L IH]; intros f q H; auto. change (puts (fs_set f p (File c)) L q = f q). rewrite IH by (intros I'; apply H; now right).
  apply set_other. intros ->. apply H. now left.
Qed.
Lemma puts_hit L : forall f g q, In q (map fst L) -> puts f L q = puts g L q.
Proof.
  induction L as [|[p c] L IH]; intros f g q H; [destruct H|]. change (puts (fs_set f p (File c)) L q = puts (fs_set g p (File c)) L q).
  destruct (in_dec (list_eq_dec (list_eq_dec Ascii.ascii_dec)) q (map fst L)) as [I'|I']; [now apply IH|]. rewrite !puts_miss by auto. destruct H as [<-|H]; [|now destruct I']. cbn [fst]. now rewrite !fs_set_same.
Qed.
Lemma puts_file L : forall f q, In q (map fst L) -> exists c, puts f L q = Some (File c).
Proof.
  induction L as [|[p c] L IH]; intros f q H; [destruct H|]. change (exists c', puts (fs_set f p (File c)) L q = Some (File c')).
  destruct (in_dec (list_eq_dec (list_eq_dec Ascii.ascii_dec)) q (map fst L)) as [I'|I']; [now apply IH|]. rewrite !puts_miss by auto. destruct H as [<-|H]; [|now destruct I']. cbn [fst]. rewrite fs_set_same. eauto.
Qed.
(** directories stay directories, files stay files *)
Definition evolves (f g : fs) : Prop := forall q, (f q = Some Dir -> g q = Some Dir) /\ (forall c, f q = Some (File c) -> exists c', g q = Some (File c')).
Lemma evolves_refl f : evolves f f.
Proof. intros q. split; eauto. Qed.
Lemma evolves_trans f g h : evolves f g -> evolves g h -> evolves f h.
Proof.
  intros A B q. destruct (A q) as [A1 A2], (B q) as [B1 B2]. split; auto. intros c H. destruct (A2 c H) as [c' H']. eauto.
Qed.
Record replayed {A} (x : act A) (w w' : world) (a : A) (L : list (path * str)) (V : list (path * layer)) (R : list (path * dataset doubles)) : Prop := {
  rp_shapes : w_vectors w' = w_vectors w ++ V;
  rp_images : w_rasters w' = w_rasters w ++ R;
  rp_evolves : evolves (w_fs w) (w_fs w');
  rp_has : forall q, puts (w_fs w') L q = w_fs w' q;
  rp_new : forall q, w_fs w' q = w_fs w q \/ In q (map fst L) \/ w_fs w q = None;
  rp_again : forall u, evolves (w_fs w') (w_fs u) -> x u = (mkWorld (puts (w_fs u) L) (w_vectors u ++ V) (w_rasters u ++ R), Ok a) }.
Lemma world_same u : mkWorld (w_fs u) (w_vectors u ++ []) (w_rasters u ++ []) = u.
Proof. destruct u. cbn. now rewrite !app_nil_r. Qed.
Lemma replayed_keeps {A} (x : act A) w a : (forall u, x u = (u, Ok a)) -> replayed x w w a [] [] [].
Proof.
  intros H. split; [now rewrite app_nil_r..|apply evolves_refl|auto|auto|]. intros u _. rewrite H. change (puts (w_fs u) []) with (w_fs u). now rewrite world_same.
Qed.
Lemma puts_evolves f g L : (forall q, puts f L q = f q) -> evolves f g -> evolves f (puts g L).
Proof.
  intros H E q. destruct (in_dec (list_eq_dec (list_eq_dec Ascii.ascii_dec)) q (map fst L)) as [I'|I'].
  - destruct (puts_file L f q I') as [c Hc]. destruct (puts_file L g q I') as [d Hd]. rewrite H in Hc. split; [congruence|eauto].
  - rewrite puts_miss by auto. apply E.
Qed.
Lemma replayed_bnd {A B} (x : act A) (k : A -> act B) w w1 w' a b L1 V1 R1 L2 V2 R2 : replayed x w w1 a L1 V1 R1 -> replayed (k a) w1 w' b L2 V2 R2 ->
  replayed (bnd x k) w w' b (L1 ++ L2) (V1 ++ V2) (R1 ++ R2).
Proof.
  intros [S1 I1 E1 H1 N1 A1] [S2 I2 E2 H2 N2 A2]. assert (forall q, puts (w_fs w') (L1 ++ L2) q = w_fs w' q) as Has.
  { intros q. rewrite puts_app. destruct (in_dec (list_eq_dec (list_eq_dec Ascii.ascii_dec)) q (map fst L2)) as [J|J]; [rewrite (puts_hit L2 _ (w_fs w') q J); apply H2|]. rewrite (puts_miss L2) by auto.
    destruct (in_dec (list_eq_dec (list_eq_dec Ascii.ascii_dec)) q (map fst L1)) as [J'|J']; [|now rewrite puts_miss]. destruct (puts_file L1 (w_fs w1) q J') as [c Hc]. rewrite H1 in Hc.
    rewrite (puts_hit L1 _ (w_fs w1) q J'), H1. destruct (N2 q) as [N2'|[N2'|N2']]; [auto|easy|congruence]. }
  split.
  - rewrite S2, S1. now rewrite app_assoc.
  - rewrite I2, I1. now rewrite app_assoc.
  - exact (evolves_trans _ _ _ E1 E2).
  - exact Has.
  - intros q. rewrite map_app. destruct (N2 q) as [N2'|[N2'|N2']].
    + rewrite N2'. destruct (N1 q) as [?|[?|?]]; auto. right; left. apply in_or_app; auto.
    + right; left. apply in_or_app; auto.
    + destruct (N1 q) as [N1'|[N1'|N1']]; [right; right; congruence| |auto]. right; left. apply in_or_app; auto.
  - intros u E. unfold bnd. rewrite (A1 u (evolves_trans _ _ _ E2 E)). rewrite A2.
    + cbn [w_fs w_vectors w_rasters]. rewrite puts_app, <- !app_assoc. reflexivity.
    + cbn [w_fs]. intros q. destruct (in_dec (list_eq_dec (list_eq_dec Ascii.ascii_dec)) q (map fst L1)) as [J|J].
      * destruct (puts_file L1 (w_fs w1) q J) as [c Hc]. rewrite H1 in Hc. destruct (puts_file L1 (w_fs u) q J) as [d Hd]. destruct (E2 q) as [_ E2']. destruct (E2' c Hc) as [c' Hc']. split; [congruence|eauto].
      * rewrite puts_miss by auto. apply E.
Qed.
Lemma replayed_lift {A} (o : outcome A) w a : o = Ok a -> replayed (lift o) w w a [] [] [].
Proof. intros ->. now apply replayed_keeps. Qed.
Lemma replayed_ret {A} (a : A) w : replayed (ret a) w w a [] [] [].
Proof. now apply replayed_keeps. Qed.
(** a file in a directory *)
Lemma replayed_write d n t w w' : no_nul (d ++ [n]) -> w_fs w d = Some Dir -> write_text (d ++ [n]) t w = (w', Ok tt) -> exists L, replayed (write_text (d ++ [n]) t) w w' tt L [] [].
Proof.
  intros N D E. unfold write_text, on_fs in E. injection E as <-.
  assert (forall u, w_fs u d = Some Dir -> can_create (w_fs u) (d ++ [n]) = match w_fs u (d ++ [n]) with Some Dir => false | _ => true end) as C.
  { intros u Hd. unfold can_create. rewrite (os_path_plain _ N). destruct (d ++ [n]) as [|c r] eqn:Ep; [destruct d; discriminate|]. rewrite <- Ep, removelast_last, Hd. reflexivity. }
  destruct (w_fs w (d ++ [n])) as [[|c]|] eqn:F.
  - exists []. assert (forall u, w_fs u d = Some Dir -> w_fs u (d ++ [n]) = Some Dir -> fwrite (w_fs u) (d ++ [n]) t = w_fs u) as W by (intros u U1 U2; unfold fwrite; rewrite (C u U1), U2; reflexivity).
    rewrite (W w D F). split; cbn [w_vectors w_rasters w_fs]; [now rewrite app_nil_r..|apply evolves_refl|auto|auto|]. intros u E. unfold write_text, on_fs. rewrite W; [|apply E; auto..]. now rewrite !app_nil_r.
  - assert (forall u c', w_fs u d = Some Dir -> w_fs u (d ++ [n]) = Some (File c') -> fwrite (w_fs u) (d ++ [n]) t = puts (w_fs u) [(d ++ [n], t)]) as W by (intros u c' U1 U2; unfold fwrite; rewrite (C u U1), U2, (os_path_plain _ N); reflexivity).
    exists [(d ++ [n], t)]. rewrite (W w c D F). split; cbn [w_vectors w_rasters w_fs map fst]; [now rewrite app_nil_r..| | | |].
    + intros q. destruct (list_eq_dec (list_eq_dec Ascii.ascii_dec) q (d ++ [n])) as [->|Q]; [split; [congruence|]; intros; exists t; apply fs_set_same|]. rewrite puts_miss by (intros [J|[]]; cbn in J; auto). split; eauto.
    + intros q. destruct (list_eq_dec (list_eq_dec Ascii.ascii_dec) q (d ++ [n])) as [->|Q]; [apply puts_hit; now left|]. now rewrite !puts_miss by (intros [J|[]]; cbn in J; auto).
    + intros q. destruct (list_eq_dec (list_eq_dec Ascii.ascii_dec) q (d ++ [n])) as [->|Q]; [right; left; now left|]. left. apply puts_miss. intros [J|[]]; cbn in J; auto.
    + intros u E. unfold write_text, on_fs. destruct (E d) as [E1 _]. destruct (E (d ++ [n])) as [_ E2]. destruct (E2 t) as [c' Hc]; [apply fs_set_same|].
      rewrite (W u c'); [now rewrite !app_nil_r| |exact Hc]. apply E1. cbn [w_fs]. rewrite puts_miss; [exact D|]. intros [J|[]]. cbn in J. rewrite J in F. congruence.
  - assert (forall u, w_fs u d = Some Dir -> w_fs u (d ++ [n]) <> Some Dir -> fwrite (w_fs u) (d ++ [n]) t = puts (w_fs u) [(d ++ [n], t)]) as W
      by (intros u U1 U2; unfold fwrite; rewrite (C u U1), (os_path_plain _ N); destruct (w_fs u (d ++ [n])) as [[|]|]; [easy|reflexivity..]).
    exists [(d ++ [n], t)]. rewrite (W w D) by congruence. split; cbn [w_vectors w_rasters w_fs map fst]; [now rewrite app_nil_r..| | | |].
    + intros q. destruct (list_eq_dec (list_eq_dec Ascii.ascii_dec) q (d ++ [n])) as [->|Q]; [split; congruence|]. rewrite puts_miss by (intros [J|[]]; cbn in J; auto). split; eauto.
    + intros q. destruct (list_eq_dec (list_eq_dec Ascii.ascii_dec) q (d ++ [n])) as [->|Q]; [apply puts_hit; now left|]. now rewrite !puts_miss by (intros [J|[]]; cbn in J; auto).
    + intros q. destruct (list_eq_dec (list_eq_dec Ascii.ascii_dec) q (d ++ [n])) as [->|Q]; [auto|]. left. apply puts_miss. intros [J|[]]; cbn in J; auto.
    + intros u E. unfold write_text, on_fs. destruct (E d) as [E1 _]. destruct (E (d ++ [n])) as [_ E2]. destruct (E2 t) as [c' Hc]; [apply fs_set_same|].
      rewrite (W u); [now rewrite !app_nil_r| |congruence]. apply E1. cbn [w_fs]. rewrite puts_miss; [exact D|]. intros [J|[]]. cbn in J. rewrite J in F. congruence.
Qed.
(** making a directory that may be there *)
Definition makes (d : path) (g : fs -> fs * outcome unit) : Prop :=
  (forall f f', g f = (f', Ok tt) -> f' d = Some Dir /\ (f' = f \/ (f d = None /\ f' = fs_set f d Dir))) /\ (forall f, f d = Some Dir -> g f = (f, Ok tt)).
Lemma replayed_make d g w w' : makes d g -> on_fs g w = (w', Ok tt) -> replayed (on_fs g) w w' tt [] [] [] /\ w_fs w' d = Some Dir.
Proof.
  intros [M1 M2] E. unfold on_fs in E. destruct (g (w_fs w)) as [f' r] eqn:Eg. injection E as <- ->. destruct (M1 _ _ Eg) as [D C]. cbn [w_fs]. split; [|exact D].
  split; cbn [w_vectors w_rasters w_fs map]; [now rewrite app_nil_r..| |reflexivity| |].
  - destruct C as [->|[F ->]]; [apply evolves_refl|]. intros q. destruct (list_eq_dec (list_eq_dec Ascii.ascii_dec) q d) as [->|Q]; [split; congruence|]. rewrite (set_other (w_fs w) d Dir q Q). split; eauto.
  - intros q. destruct C as [->|[F ->]]; auto. destruct (list_eq_dec (list_eq_dec Ascii.ascii_dec) q d) as [->|Q]; auto. left. exact (set_other (w_fs w) d Dir q Q).
  - intros u E. unfold on_fs. rewrite (M2 (w_fs u)); [|now apply E]. now rewrite !app_nil_r.
Qed.
Lemma create_eq f d : no_nul d -> d <> [] -> create_directory f d =
  match f (removelast d), f d with Some Dir, None => (fs_set f d Dir, Ok tt) | _, Some Dir => (f, Ok tt) | _, _ => (f, Throw FilesystemError) end.
Proof. intros N Z. unfold create_directory. rewrite (os_path_plain d N). destruct d; [easy|reflexivity]. Qed.
Lemma makes_create d : no_nul d -> d <> [] -> makes d (fun f => create_directory f d).
Proof.
  intros N Z. split.
  - intros f f' H. rewrite (create_eq f d N Z) in H. destruct (f (removelast d)) as [[|]|], (f d) as [[|]|] eqn:F; inversion H; subst; auto. split; [apply fs_set_same|auto].
  - intros f H. rewrite (create_eq f d N Z), H. destruct (f (removelast d)) as [[|]|]; reflexivity.
Qed.
Lemma makes_ensure d : no_nul d -> makes d (fun f => if negb (fs_exists f d) then create_directory f d else if is_directory f d then (f, Ok tt) else (f, Throw RuntimeError)).
Proof.
  intros N. split.
  - intros f f'. unfold fs_exists, is_directory. rewrite (os_path_plain d N). destruct (f d) as [[|]|] eqn:F; cbn [negb]; intros H; [injection H as <-; auto|discriminate|].
    assert (d <> []) as Z. { intros ->. unfold create_directory in H. cbn [os_path] in H. discriminate H. } destruct (proj1 (makes_create d N Z) f f' H) as [P [Q|[_ Q]]]; auto.
  - intros f H. unfold fs_exists, is_directory. rewrite (os_path_plain d N), H. reflexivity.
Qed.
(** the loops *)
Lemma replayed_each {A} (g : A -> act unit) d l : (forall a w w', In a l -> w_fs w d = Some Dir -> g a w = (w', Ok tt) -> exists L V R, replayed (g a) w w' tt L V R) ->
  forall w w', w_fs w d = Some Dir -> each g l w = (w', Ok tt) -> exists L V R, replayed (each g l) w w' tt L V R.
Proof.
  induction l as [|a l IH]; intros H w w' D E; cbn [each] in *.
  - unfold ret in E. injection E as <-. exists [], [], []. apply replayed_ret.
  - apply bnd_Ok in E. destruct E as ([] & w1 & E1 & E2). destruct (H a w w1 (or_introl eq_refl) D E1) as (L1 & V1 & R1 & P1).
    destruct (IH (fun b u u' I' => H b u u' (or_intror I')) w1 w') as (L2 & V2 & R2 & P2); [now apply (rp_evolves _ _ _ _ _ _ _ P1)|exact E2|].
    exists (L1 ++ L2), (V1 ++ V2), (R1 ++ R2). exact (replayed_bnd _ _ _ _ _ _ _ _ _ _ _ _ _ P1 P2).
Qed.

(** ** The scene read again *)
Lemma split_tail x : x <> [] -> ~ In ch_slash x -> forall s cur, exists q n, split_slash cur (s ++ x) = q ++ [n ++ x].
Proof.
  intros Z N. induction s as [|c s IH]; intros cur; cbn [app].
  - rewrite (split_slash_plain x cur N). exists [], (rev cur). cbn [app]. destruct (rev cur ++ x) eqn:E; [apply app_eq_nil in E as [_ E]; easy|]. reflexivity.
  - cbn [split_slash]. destruct (Ascii.eqb c ch_slash); [|apply IH]. destruct cur as [|e cur]; [apply IH|]. destruct (IH []) as (q & n & E). exists (rev (e :: cur) :: q), n. rewrite E. reflexivity.
Qed.
Lemma split_chars s : forall cur x c, In x (split_slash cur s) -> In c x -> In c cur \/ In c s.
Proof.
  induction s as [|d s IH]; intros cur x c I1 I2; cbn [split_slash] in I1.
  - destruct cur as [|e cur]; [destruct I1|]. destruct I1 as [<-|[]]. left. now apply in_rev.
  - destruct (Ascii.eqb d ch_slash).
    + destruct cur as [|e cur]; [destruct (IH [] x c I1 I2) as [[]|J]; right; now right|]. destruct I1 as [<-|I1]; [left; now apply in_rev|]. destruct (IH [] x c I1 I2) as [[]|J]. right; now right.
    + destruct (IH (d :: cur) x c I1 I2) as [[<-|J]|J]; [right; now left|now left|right; now right].
Qed.
Lemma split_dot_app s : forall a b, split_dot s = Some (a, b) -> s = a ++ b.
Proof.
  induction s as [|c s IH]; intros a b E; [discriminate|]. cbn [split_dot] in E. destruct (split_dot s) as [[a' b']|]; [injection E as <- <-; cbn; now rewrite (IH a' b' eq_refl)|].
  destruct (Ascii.eqb c ch_dot); [|discriminate]. injection E as <- <-. reflexivity.
Qed.
Lemma stem_chars p c : In c (stem p) -> In c (filename p).
Proof.
  unfold stem. destruct (dots_only (filename p)); auto. destruct (split_dot (filename p)) as [[a b]|] eqn:E; auto. intros H. rewrite (split_dot_app _ _ _ E). apply in_or_app; now left.
Qed.
Lemma xml_shape p : no_nul p -> exists q n, os_path (xml_path p) = q ++ [n ++ lit ".XML"].
Proof.
  intros N. rewrite os_path_plain.
  - unfold xml_path, path_join. destruct (split_tail (lit ".XML") ltac:(discriminate) ltac:(cbn; intuition discriminate) (stem p) []) as (q & n & E). exists (parent_path p ++ q), n. rewrite <- app_assoc. f_equal. exact E.
  - intros x I' Z. unfold xml_path, path_join in I'. apply in_app_or in I' as [I'|I'].
    + assert (forall (l : path) y, In y (removelast l) -> In y l) as RI. { clear. induction l as [|a l IH]; cbn [removelast]; auto. destruct l; [intros y []|]. intros y [<-|J]; [now left|right; auto]. } exact (N x (RI _ _ I') Z).
    + destruct (split_chars _ _ _ _ I' Z) as [[]|J]. apply in_app_or in J as [J|J]; [|cbn in J; intuition discriminate]. apply stem_chars in J. unfold filename in J.
      destruct p as [|a p] using rev_ind; [destruct J|]. rewrite last_last in J. apply (N a); [apply in_or_app; right; now left|exact J].
Qed.
Lemma reads_alike {S} X (build : mesh -> outcome S) f g ls p m fm : no_nul p -> (forall q, g (p ++ q) = f (p ++ q)) ->
  (fm = t3ds \/ fm = t3ds_xml -> forall q n, g (q ++ [n ++ lit ".XML"]) = f (q ++ [n ++ lit ".XML"])) -> scene_read X build g ls (mkSceneH p m fm) = scene_read X build f ls (mkSceneH p m fm).
Proof.
  intros N A B.
  assert (forall q, g (os_path (p ++ q)) = f (os_path (p ++ q))) as R by (intros q; destruct (os_path_under p q N) as [r ->]; apply A).
  assert (g (os_path p) = f (os_path p)) as R0 by (pose proof (R []) as R0; now rewrite app_nil_r in R0).
  assert (forall q m', off_handler_read g (p ++ q) m' = off_handler_read f (p ++ q) m') as O by (intros q m'; unfold off_handler_read, is_regular_file, fread; now rewrite R).
  assert (t3ds_make X g p m = t3ds_make X f p m) as T by (unfold t3ds_make, is_regular_file, fread; now rewrite R0).
  assert (fm = t3ds \/ fm = t3ds_xml -> tree_make X g (xml_path p) = tree_make X f (xml_path p)) as Y by (intros H; unfold tree_make; destruct (xml_shape p N) as (q & n & ->); now rewrite (B H)).
  unfold scene_read. cbn [sh_path sh_modes sh_fmt]. destruct fm.
  - rewrite T, Y by auto. reflexivity.
  - rewrite T, Y by auto. reflexivity.
  - unfold is_directory. rewrite R0. assert (read_off_entries g p m ls = read_off_entries f p m ls) as ->.
    { induction ls as [|n ls IH]; auto. cbn [read_off_entries]. unfold is_regular_file at 1 2. rewrite R, O, IH. reflexivity. }
    unfold path_join. rewrite O. reflexivity.
  - unfold obj_get_scene, obj_handler_read, is_regular_file, fread. cbn [oh_path oh_modes]. rewrite R0. reflexivity.
Qed.
(** names *)
Lemma safe_join d n e : file_safe n -> ~ In "/"%char e -> e <> [] -> path_join d (n ++ e) = d ++ [n ++ e].
Proof.
  intros (Sl & _ & _) E Z. unfold path_join. f_equal. rewrite split_slash_plain; [|intros I'; apply in_app_or in I' as [I'|I']; [exact (Sl I')|exact (E I')]]. cbn [rev app]. destruct (n ++ e) eqn:Q; [apply app_eq_nil in Q as [_ Q]; easy|reflexivity].
Qed.
Lemma safe_no_nul d n e : no_nul d -> file_safe n -> ~ In nul e -> no_nul (d ++ [n ++ e]).
Proof.
  intros N (_ & Z & _) E c I'. apply in_app_or in I' as [I'|[<-|[]]]; [now apply N|]. intros J. apply in_app_or in J as [J|J]; [exact (Z J)|exact (E J)].
Qed.
Lemma join_word root n : ~ In "/"%char n -> n <> [] -> path_join root n = root ++ [n].
Proof. intros H Z. unfold path_join. f_equal. rewrite split_slash_plain by exact H. cbn [rev app]. destruct n; [easy|reflexivity]. Qed.
Lemma when_again b x w w' : when b x w = (w', Ok tt) -> (b = true -> x w = (w', Ok tt) -> exists L V R, replayed x w w' tt L V R) -> exists L V R, replayed (when b x) w w' tt L V R.
Proof.
  destruct b; cbn [when]; auto. intros E _. unfold ret in E. injection E as <-. exists [], [], []. apply replayed_ret.
Qed.
Lemma apart_siblings r a b : a <> b -> apart (r ++ [a]) (r ++ [b]).
Proof. intros H x y E. rewrite <- !app_assoc in E. apply app_inv_head in E. injection E as E _. auto. Qed.
(** the scene is left alone if it lies apart from what is written *)
Lemma only_in_alone ds fmt d f g : only_in ds f g -> (forall e, In e ds -> apart e d) -> fmt = lit "OFF" \/ fmt = lit "OBJ" -> left_alone fmt d f g.
Proof.
  intros O A F. split; [|intros [-> | ->]; destruct F; discriminate]. intros q. apply O. intros e r I' E. exact (A e I' r q (eq_sym E)).
Qed.
Section AGAIN.
Context {S : Type} (X : externals) (build : mesh -> outcome S) (surf : S -> surface) (prune : S -> outcome S) (line : surface -> nat -> outcome str) (listing : fs -> path -> list str).
(** reading the scene left alone *)
Lemma read_again p fmt w w' s d : lists_alike listing -> resolves p d -> no_nul d -> read_scene X build listing p fmt w = (w, Ok s) -> left_alone fmt d (w_fs w) (w_fs w') ->
  read_scene X build listing p fmt w' = (w', Ok s).
Proof.
  intros LA Rs N E [A B]. apply resolves_location in Rs. subst d. unfold read_scene in *. destruct (scene_handler_named p read_modes fmt) as [h|e|] eqn:H; [|discriminate|discriminate]. injection E as E.
  rewrite (LA (w_fs w) (w_fs w') (location p) A). rewrite (reads_alike X build (w_fs w) (w_fs w')); auto; [now rewrite E|].
  intros F. apply B. unfold scene_handler_named in H. apply bind_Ok_inv in H. destruct H as (fm & Ff & H). unfold scene_handler_make in H. apply bind_Ok_inv in H. destruct H as (_ & _ & H). apply Ok_inj in H. subst h. cbn [sh_fmt] in F.
  destruct (Props_io.C33_format_names fmt) as (F1 & F2 & _). destruct F as [-> | ->]; [left; now apply F2|right; now apply F1].
Qed.
Lemma duals_again root s w w' : no_nul root -> (forall u, In u (sc_buildings s) -> file_safe (u_name u)) -> save_building_duals surf line root s w = (w', Ok tt) ->
  exists L V R, replayed (save_building_duals surf line root s) w w' tt L V R.
Proof.
  intros N Sf E. unfold save_building_duals in *. rewrite (join_word root d_duals) in * by (cbn; intuition discriminate). set (d := root ++ [d_duals]) in *.
  assert (no_nul d) as Nd by (intros c I'; apply in_app_or in I' as [I'|[<-|[]]]; [now apply N|cbn; intuition discriminate]). assert (d <> []) as Zd by (unfold d; destruct root; discriminate).
  apply bnd_Ok in E. destruct E as ([] & w1 & E1 & E2). destruct (replayed_make d _ w w1 (makes_create d Nd Zd) E1) as [P1 D1].
  destruct (replayed_each (fun u => bnd (lift (dual_text line (surf (u_surf u)))) (fun t => write_text (path_join d (u_name u ++ e_txt)) t)) d (sc_buildings s)) with (w := w1) (w' := w') as (L & V & R & P2); auto.
  - intros u v v' I' D E. apply bnd_Ok in E. destruct E as (t & v1 & E3 & E4). unfold lift in E3. injection E3 as <- E3. rewrite (safe_join d (u_name u) e_txt) in E4 by (auto; cbn; intuition discriminate).
    destruct (replayed_write d (u_name u ++ e_txt) t v v') as [L P]; auto; [apply safe_no_nul; auto; cbn; intuition discriminate|]. exists L, [], []. rewrite (safe_join d (u_name u) e_txt) by (auto; cbn; intuition discriminate).
    exact (replayed_bnd (lift (dual_text line (surf (u_surf u)))) (fun t => write_text (d ++ [u_name u ++ e_txt]) t) v v v' t tt [] [] [] L [] [] (replayed_lift _ _ _ E3) P).
  - exists ([] ++ L), ([] ++ V), ([] ++ R). exact (replayed_bnd _ _ _ _ _ _ _ _ _ _ _ _ _ P1 P2).
Qed.
(** ** C103: the same run of cityformat again *)
Section FORMAT.
Context (to_mesh : unode S -> mesh).
Lemma off_files d m us : can_write m = true -> forall w, on_fs (fun f => write_off_files to_mesh f d m us) w = each (fun u => write_text (path_join d (u_name u ++ lit ".off")) (off_write (to_mesh u))) us w.
Proof.
  intros C. induction us as [|u us IH]; intros w; cbn [each].
  - unfold on_fs, ret. cbn [write_off_files]. now destruct w.
  - unfold bnd, write_text, on_fs at 2. rewrite <- IH. unfold on_fs. cbn [w_fs w_vectors w_rasters]. cbn [write_off_files]. change (format_extension off) with (Ok (lit ".off")). cbv beta iota. unfold off_handler_write. rewrite C. reflexivity.
Qed.
Lemma write_again p fmt s w w' : no_nul p -> (fmt = lit "OBJ" -> w_fs w (removelast p) = Some Dir) -> (forall u, In u (sc_buildings s ++ [sc_terrain s]) -> file_safe (u_name u)) ->
  write_scene to_mesh p fmt s w = (w', Ok tt) -> exists L V R, replayed (write_scene to_mesh p fmt s) w w' tt L V R.
Proof.
  intros N O Sf E. unfold write_scene in *. apply bnd_Ok in E. destruct E as (h & w0 & E0 & E). unfold lift in E0. injection E0 as <- E0.
  assert (exists L V R, replayed (on_fs (fun f => scene_write to_mesh f h s)) w w' tt L V R) as (L & V & R & P).
  2: { exists ([] ++ L), ([] ++ V), ([] ++ R). exact (replayed_bnd (lift _) (fun h => on_fs (fun f => scene_write to_mesh f h s)) _ _ _ _ _ _ _ _ _ _ _ (replayed_lift _ _ _ E0) P). }
  destruct (handler_named_fields _ _ _ _ E0) as [Hp Hm]. destruct h as [hp hm fm]. cbn [sh_path sh_modes] in Hp, Hm. subst hp hm.
  assert (forall v, scene_format fmt = Ok v -> v = fm) as Fm. { intros v Fv. unfold scene_handler_named in E0. rewrite Fv in E0. cbn [bind] in E0. unfold scene_handler_make in E0. apply bind_Ok_inv in E0. destruct E0 as (_ & _ & E0). apply Ok_inj in E0. now injection E0. }
  destruct fm.
  - unfold on_fs in E. cbn [scene_write sh_fmt] in E. discriminate E.
  - unfold on_fs in E. cbn [scene_write sh_fmt] in E. discriminate E.
  - set (ensure := fun f : fs => if negb (fs_exists f p) then create_directory f p else if is_directory f p then (f, Ok tt) else (f, Throw RuntimeError)).
    set (wr := fun us => each (fun u : unode S => write_text (path_join p (u_name u ++ lit ".off")) (off_write (to_mesh u))) us).
    assert (forall v, on_fs (fun f => scene_write to_mesh f (mkSceneH p write_modes off) s) v = bnd (on_fs ensure) (fun _ => bnd (wr (sc_buildings s)) (fun _ => wr [sc_terrain s])) v) as EQ.
    { intros v. unfold bnd, wr. unfold on_fs at 1 2. cbn [scene_write sh_fmt sh_path sh_modes]. fold (ensure (w_fs v)). destruct (ensure (w_fs v)) as [f1 [[]|e|]]; auto.
      rewrite <- (off_files p write_modes) by reflexivity. unfold on_fs at 1. cbn [w_fs w_vectors w_rasters]. destruct (write_off_files to_mesh f1 p write_modes (sc_buildings s)) as [f2 [[]|e|]]; auto. }
    rewrite EQ in E. apply bnd_Ok in E. destruct E as ([] & w1 & E1 & E). destruct (replayed_make p ensure w w1 (makes_ensure p N) E1) as [P1 D1]. apply bnd_Ok in E. destruct E as ([] & w2 & E2 & E3).
    assert (forall us v v', (forall u, In u us -> file_safe (u_name u)) -> w_fs v p = Some Dir -> wr us v = (v', Ok tt) -> exists L V R, replayed (wr us) v v' tt L V R) as W.
    { intros us v v' Su D Ev. apply (replayed_each _ p us) with (w := v) (w' := v'); auto. intros u x x' I' Dx Ex. rewrite (safe_join p (u_name u) (lit ".off")) in * by (auto; cbn; intuition discriminate).
      destruct (replayed_write p (u_name u ++ lit ".off") (off_write (to_mesh u)) x x') as [L P]; auto; [apply safe_no_nul; auto; cbn; intuition discriminate|]. exists L, [], []. exact P. }
    destruct (W (sc_buildings s) w1 w2) as (L2 & V2 & R2 & P2); auto; [intros u I'; apply Sf, in_or_app; now left|].
    destruct (W [sc_terrain s] w2 w') as (L3 & V3 & R3 & P3); auto; [intros u I'; apply Sf, in_or_app; now right|now apply (rp_evolves _ _ _ _ _ _ _ P2)|].
    assert (replayed (bnd (on_fs ensure) (fun _ => bnd (wr (sc_buildings s)) (fun _ => wr [sc_terrain s]))) w w' tt ([] ++ L2 ++ L3) ([] ++ V2 ++ V3) ([] ++ R2 ++ R3)) as [Q1 Q2 Q3 Q4 Q5 Q6].
    { refine (replayed_bnd _ _ _ _ _ _ _ _ _ _ _ _ _ P1 _). exact (replayed_bnd _ _ _ _ _ _ _ _ _ _ _ _ _ P2 P3). }
    eexists _, _, _. split; [exact Q1|exact Q2|exact Q3|exact Q4|exact Q5|]. intros u Eu. rewrite EQ. exact (Q6 u Eu).
  - assert (fmt = lit "OBJ") as F. { unfold scene_handler_named in E0. apply bind_Ok_inv in E0. destruct E0 as (v & Fv & _). rewrite (Fm v Fv) in Fv. now apply (Props_io.C33_format_names fmt). }
    specialize (O F). unfold on_fs in E. cbn [scene_write sh_fmt sh_path sh_modes] in E. unfold obj_handler_write, obj_handler_of_scene in E. cbn [oh_modes oh_path oh_meshes] in E. change (can_write write_modes) with true in E. cbv iota in E.
    destruct (obj_write (map to_mesh (sc_buildings s) ++ [to_mesh (sc_terrain s)])) as [t|e|] eqn:T; [|discriminate|discriminate].
    assert (forall v, on_fs (fun f => scene_write to_mesh f (mkSceneH p write_modes obj) s) v = write_text p t v) as EQ.
    { intros v. unfold write_text, on_fs. cbn [scene_write sh_fmt sh_path sh_modes]. unfold obj_handler_write, obj_handler_of_scene. cbn [oh_modes oh_path oh_meshes]. change (can_write write_modes) with true. cbv iota. rewrite T. reflexivity. }
    assert (p <> []) as Z. { intros ->. unfold scene_handler_named in E0. rewrite F in E0. change (scene_format (lit "OBJ")) with (Ok obj) in E0. cbn in E0. discriminate E0. }
    destruct (exists_last Z) as (d & n & Pp). subst p. rewrite removelast_last in O.
    destruct (replayed_write d n t w w') as [L [Q1 Q2 Q3 Q4 Q5 Q6]]; [exact N|exact O|exact E|].
    exists L, [], []. split; [exact Q1|exact Q2|exact Q3|exact Q4|exact Q5|]. intros u Eu. rewrite EQ. exact (Q6 u Eu).
Qed.
Notation format := (format_main X build surf to_mesh prune line listing).
(** cityformat: the same run, on what the first run left, ends in the same way and changes nothing *)
Theorem C103_format m a w w' t d : format_given m a -> format (PArgs m) w = (w', Exit 0 None, t) -> lists_alike listing ->
  resolves (fa_path a) d -> no_nul (fa_path a) -> no_nul (fa_out a) -> (fa_outfmt a = lit "OBJ" -> w_fs w (removelast (fa_out a)) = Some Dir) ->
  (forall s u, scene_of X build prune listing (w_fs w) (fa_path a) (fa_format a) (fa_prune a) (fa_terrain a) s -> In u (sc_buildings s ++ [sc_terrain s]) -> file_safe (u_name u)) ->
  left_alone (fa_format a) d (w_fs w) (w_fs w') ->
  exists w'', format (PArgs m) w' = (w'', Exit 0 None, t) /\ same_disk (w_fs w') (w_fs w'') /\ w_vectors w'' = w_vectors w' /\ w_rasters w'' = w_rasters w'.
Proof.
  intros H E LA Rs Np No Ob Sf LL. rewrite !(format_given_run X build surf to_mesh prune line listing m a _ H) in *.
  destruct (format_body X build surf to_mesh prune line listing (Some a) w) as [w1 [t1|e|]] eqn:B; try discriminate. injection E as -> ->. cbn [format_body] in *.
  apply bnd_Ok in B. destruct B as (s & w2 & E1 & B). pose proof E1 as E1'. apply input_complete in E1'. destruct E1' as (Sc & V1 & R1). apply bnd_Ok in B. destruct B as ([] & w3 & E2 & B). unfold ret in B. injection B as -> <-.
  unfold input_scene in E1. apply bnd_Ok in E1. destruct E1 as (s0 & w0 & E0 & E1). pose proof (read_scene_keeps X build listing (fa_path a) (fa_format a) w) as Kp. rewrite E0 in Kp. cbn [fst] in Kp. subst w0.
  apply bnd_Ok in E1. destruct E1 as (s1 & w1 & E3 & E1). unfold lift in E3. injection E3 as <- E3. apply bnd_Ok in E1. destruct E1 as ([] & w4 & E4 & E1). unfold ret in E1. injection E1 as <- <-.
  assert (forall u, In u (sc_buildings s1 ++ [sc_terrain s1]) -> file_safe (u_name u)) as Ss by (intros u I'; exact (Sf s1 u Sc I')).
  assert (no_nul (parent_path (fa_path a))) as Npar. { intros c I'. apply Np. unfold parent_path in I'. revert I'. generalize (fa_path a). clear. intros l. induction l as [|x l IH]; cbn [removelast]; auto. destruct l; [intros []|]. intros [<-|J]; [now left|right; auto]. }
  assert (no_nul d) as Nd. { destruct Rs as [Rs|[<- _]]; auto. intros c I'. apply Np. rewrite Rs. apply in_or_app; now left. }
  destruct (when_again _ _ _ _ E4) as (L1 & V2 & R2 & P1). { intros Gr E5. apply duals_again; auto. intros u I'. apply Ss, in_or_app; now left. }
  destruct (write_again (fa_out a) (fa_outfmt a) s1 w4 w') as (L2 & V3 & R3 & P2); auto. { intros O. apply (rp_evolves _ _ _ _ _ _ _ P1). now apply Ob. }
  pose proof (read_again _ _ _ _ _ _ LA Rs Nd E0 LL) as Rd.
  pose proof (replayed_bnd _ (fun _ => write_scene to_mesh (fa_out a) (fa_outfmt a) s1) _ _ _ _ _ _ _ _ _ _ _ P1 P2) as P. pose proof (rp_again _ _ _ _ _ _ _ P w' (evolves_refl _)) as Ag.
  assert (V2 ++ V3 = [] /\ R2 ++ R3 = []) as [Vn Rn].
  { split.
    - pose proof (rp_shapes _ _ _ _ _ _ _ P) as Q. assert (w_vectors w' = w_vectors w) as Q'. { rewrite <- V1. unfold write_scene in E2. apply bnd_Ok in E2. destruct E2 as (h & w5 & E5 & E6). unfold lift in E5. injection E5 as <- _. unfold on_fs in E6. destruct (scene_write _ _ _ _). injection E6 as <- _. reflexivity. }
      rewrite Q' in Q. rewrite <- (app_nil_r (w_vectors w)) in Q at 1. now apply app_inv_head in Q.
    - pose proof (rp_images _ _ _ _ _ _ _ P) as Q. assert (w_rasters w' = w_rasters w) as Q'. { rewrite <- R1. unfold write_scene in E2. apply bnd_Ok in E2. destruct E2 as (h & w5 & E5 & E6). unfold lift in E5. injection E5 as <- _. unfold on_fs in E6. destruct (scene_write _ _ _ _). injection E6 as <- _. reflexivity. }
      rewrite Q' in Q. rewrite <- (app_nil_r (w_rasters w)) in Q at 1. now apply app_inv_head in Q. }
  rewrite Vn, Rn, !app_nil_r in Ag. eexists. split; [|split; [|split]].
  - unfold input_scene. unfold bnd at 1 2. rewrite Rd. unfold bnd at 1, lift. rewrite E3. unfold bnd in Ag |- *. cbv beta in Ag |- *.
    destruct (when (fa_graphs a) (save_building_duals surf line (parent_path (fa_path a)) s1) w') as [w5 [[]|e|]]; [|discriminate Ag|discriminate Ag]. unfold ret. rewrite Ag. reflexivity.
  - intros p. apply (rp_has _ _ _ _ _ _ _ P).
  - reflexivity.
  - reflexivity.
Qed.
Theorem C103_format_apart m a w w' t d : format_given m a -> format (PArgs m) w = (w', Exit 0 None, t) -> no_nul (fa_path a) -> no_nul (fa_out a) ->
  (forall s u, scene_of X build prune listing (w_fs w) (fa_path a) (fa_format a) (fa_prune a) (fa_terrain a) s -> In u (sc_buildings s ++ [sc_terrain s]) -> file_safe (u_name u)) ->
  apart (fa_out a) d -> (fa_graphs a = true -> apart (parent_path (fa_path a) ++ [lit "dual_graphs"]) d) -> fa_format a = lit "OFF" \/ fa_format a = lit "OBJ" ->
  left_alone (fa_format a) d (w_fs w) (w_fs w').
Proof.
  intros H E Np No Sf Ao Ag F. assert (no_nul (parent_path (fa_path a))) as Npar. { intros c I'. apply Np. unfold parent_path in I'. revert I'. generalize (fa_path a). clear. intros l. induction l as [|x l IH]; cbn [removelast]; auto. destruct l; [intros []|]. intros [<-|J]; [now left|right; auto]. }
  destruct (C75_complete X build surf to_mesh prune line listing m a w w' t H E Npar) as (_ & _ & _ & s & f & h & Sc & O & Hn & W).
  assert (left_alone (fa_format a) d (w_fs w) f) as [L1 _].
  { apply (only_in_alone _ _ _ _ _ O); auto. intros e I'. destruct (fa_graphs a); [|destruct I']. destruct I' as [<-|[]]. rewrite join_word by (cbn; intuition discriminate). now apply Ag. }
  assert (only_in [fa_out a] f (w_fs w')) as O2.
  { destruct (handler_named_fields _ _ _ _ Hn) as [Hp Hm]. destruct h as [hp hm fm]. cbn [sh_path sh_modes] in Hp, Hm. subst hp hm. destruct fm; [discriminate W|discriminate W| |].
    - pose proof (Props_convert.scene_write_only to_mesh f (fa_out a) [(lit "write", true)] s No (fun u => Sf s u Sc)) as Q. rewrite W in Q. exact Q.
    - cbn [scene_write sh_fmt sh_path sh_modes] in W. unfold obj_handler_write, obj_handler_of_scene in W. cbn [oh_modes oh_path oh_meshes] in W. change (can_write [(lit "write", true)]) with true in W. cbv iota in W.
      destruct (obj_write (map to_mesh (sc_buildings s) ++ [to_mesh (sc_terrain s)])) as [c|e|]; [|discriminate W|discriminate W]. injection W as <-. rewrite <- (app_nil_r (fa_out a)) at 2. now apply fwrite_only. }
  destruct (only_in_alone _ (fa_format a) d _ _ O2) as [L2 _]; auto; [intros e [<-|[]]; exact Ao|]. split; [intros q; rewrite L2; apply L1|intros [Z|Z]; rewrite Z in F; destruct F; discriminate].
Qed.
End FORMAT.
(** ** C103: the same run of orthoproject again *)
Section ORTHO.
Context (K : kernel) (G : gdal) (stod : str -> outcome dbl).
Lemma vector_again p labels fp w w' : vector_write K G p labels fp w = (w', Ok tt) -> exists V, replayed (vector_write K G p labels fp) w w' tt [] V [].
Proof.
  unfold vector_write. intros E. destruct (can_write write_modes); [|discriminate]. destruct (g_shp G); [|discriminate]. destruct (g_create G p); [|discriminate]. destruct (foot_out _ _ _ _ _ _) as [ly|e|]; [|discriminate|discriminate].
  injection E as <-. exists [(p, ly)]. split; cbn [w_vectors w_rasters w_fs]; auto; [now rewrite app_nil_r|apply evolves_refl|]. intros u _. now rewrite app_nil_r.
Qed.
Lemma raster_again p x w w' : raster_write G p x w = (w', Ok tt) -> exists R, replayed (raster_write G p x) w w' tt [] [] R.
Proof.
  unfold raster_write. intros E. destruct (can_write write_modes); [|discriminate]. destruct (g_tiff G); [|discriminate]. destruct (g_create G p); [|discriminate]. destruct (raster_store _ _ _ _) as [ly|e|]; [|discriminate|discriminate].
  injection E as <-. exists [(p, ly)]. split; cbn [w_vectors w_rasters w_fs]; auto; [now rewrite app_nil_r|apply evolves_refl|]. intros u _. now rewrite app_nil_r.
Qed.
Lemma prints_again root l labels w w' : no_nul root -> (forall fp, In fp l -> file_safe (fp_name fp)) -> save_building_prints K G root l labels w = (w', Ok tt) ->
  exists L V R, replayed (save_building_prints K G root l labels) w w' tt L V R.
Proof.
  intros N Sf E. unfold save_building_prints in *. rewrite (join_word root d_vectors) in * by (cbn; intuition discriminate). set (d := root ++ [d_vectors]) in *.
  assert (no_nul d) as Nd by (intros c I'; apply in_app_or in I' as [I'|[<-|[]]]; [now apply N|cbn; intuition discriminate]). assert (d <> []) as Zd by (unfold d; destruct root; discriminate).
  apply bnd_Ok in E. destruct E as ([] & w1 & E1 & E2). destruct (replayed_make d _ w w1 (makes_create d Nd Zd) E1) as [P1 D1].
  destruct (replayed_each (fun fp => bnd (vector_write K G (path_join d (fp_name fp ++ e_shp)) labels fp) (fun _ => write_text (path_join d (fp_name fp ++ e_txt)) (attributes K fp))) d l) with (w := w1) (w' := w') as (L & V & R & P2); auto.
  - intros fp v v' I' D E. apply bnd_Ok in E. destruct E as ([] & v1 & E3 & E4). rewrite (safe_join d (fp_name fp) e_txt) in * by (auto; cbn; intuition discriminate).
    destruct (vector_again _ _ _ _ _ E3) as [V P3]. destruct (replayed_write d (fp_name fp ++ e_txt) (attributes K fp) v1 v') as [L P]; auto; [apply safe_no_nul; auto; cbn; intuition discriminate|now apply (rp_evolves _ _ _ _ _ _ _ P3)|].
    exists ([] ++ L), (V ++ []), ([] ++ []). exact (replayed_bnd _ (fun _ => write_text (d ++ [fp_name fp ++ e_txt]) (attributes K fp)) _ _ _ _ _ _ _ _ _ _ _ P3 P).
  - exists ([] ++ L), ([] ++ V), ([] ++ R). exact (replayed_bnd _ _ _ _ _ _ _ _ _ _ _ _ _ P1 P2).
Qed.
Lemma rasters_again root l w w' : no_nul root -> save_building_rasters G root l w = (w', Ok tt) -> exists L V R, replayed (save_building_rasters G root l) w w' tt L V R.
Proof.
  intros N E. unfold save_building_rasters in *. rewrite (join_word root d_rasters) in * by (cbn; intuition discriminate). set (d := root ++ [d_rasters]) in *.
  assert (no_nul d) as Nd by (intros c I'; apply in_app_or in I' as [I'|[<-|[]]]; [now apply N|cbn; intuition discriminate]). assert (d <> []) as Zd by (unfold d; destruct root; discriminate).
  apply bnd_Ok in E. destruct E as ([] & w1 & E1 & E2). destruct (replayed_make d _ w w1 (makes_create d Nd Zd) E1) as [P1 D1].
  destruct (replayed_each (fun r => raster_write G (path_join d (r_name doubles r ++ e_tiff)) r) d l) with (w := w1) (w' := w') as (L & V & R & P2); auto.
  - intros r v v' I' D E. destruct (raster_again _ _ _ _ E) as [R P3]. exists [], [], R. exact P3.
  - exists ([] ++ L), ([] ++ V), ([] ++ R). exact (replayed_bnd _ _ _ _ _ _ _ _ _ _ _ _ _ P1 P2).
Qed.
Lemma sum_again root name l ras px w w' : save_scene_prints K G root name l ras px w = (w', Ok tt) -> exists L V R, replayed (save_scene_prints K G root name l ras px) w w' tt L V R.
Proof.
  unfold save_scene_prints. intros E. apply bnd_Ok in E. destruct E as (fp & w0 & E0 & E). unfold lift in E0. injection E0 as <- E0. apply bnd_Ok in E. destruct E as ([] & w1 & E1 & E).
  destruct (vector_again _ _ _ _ _ E1) as [V P1]. destruct (when_again _ _ _ _ E) as (L2 & V2 & R2 & P2).
  - intros _ E2. apply bnd_Ok in E2. destruct E2 as (r & w2 & E2 & E3). unfold lift in E2. injection E2 as <- E2. destruct (raster_again _ _ _ _ E3) as [R P3]. exists ([] ++ []), ([] ++ []), ([] ++ R).
    exact (replayed_bnd (lift _) (fun r => raster_write G (path_join root (name ++ e_tiff)) r) _ _ _ _ _ _ _ _ _ _ _ (replayed_lift _ _ _ E2) P3).
  - exists ([] ++ [] ++ L2), ([] ++ V ++ V2), ([] ++ [] ++ R2). refine (replayed_bnd (lift _) _ _ _ _ fp _ _ _ _ _ _ _ (replayed_lift _ _ _ E0) _).
    exact (replayed_bnd _ (fun _ => when ras (bnd (lift (raster_of doubles K fp px)) (fun r => raster_write G (path_join root (name ++ e_tiff)) r))) _ _ _ _ _ _ _ _ _ _ _ P1 P2).
Qed.
Lemma print_names s terrain l : orthoproject K surf s terrain = Ok l -> (forall u, In u (sc_buildings s ++ [sc_terrain s]) -> file_safe (u_name u)) -> forall fp, In fp l -> file_safe (fp_name fp).
Proof.
  intros E Sf fp I'. pose proof (Props_projection.C58_orthoproject K S surf s terrain l E) as F. assert (exists u, In u (sc_buildings s ++ if terrain then [sc_terrain s] else []) /\ fp_name fp = u_name u) as (u & Iu & ->).
  { clear -F I'. revert I'. induction F as [|u f us fs [Q _] F IH]; [intros []|]. intros [<-|I']; [exists u; split; [now left|auto]|]. destruct (IH I') as (v & Iv & Qv). exists v. split; [now right|auto]. }
  apply Sf. apply in_app_or in Iu as [Iu|Iu]; apply in_or_app; [now left|right]. destruct terrain; [exact Iu|destruct Iu].
Qed.
Notation ortho := (ortho_main X build surf prune line listing K G stod).
(** orthoproject: the same run stores the same shapes and images once more, and changes nothing else *)
Theorem C103_ortho m a w w' d : ortho_given stod m a -> ortho (PArgs m) w = (w', Exit 0 None) -> lists_alike listing ->
  resolves (oa_path a) d -> no_nul (oa_path a) ->
  (forall s u, scene_of X build prune listing (w_fs w) (oa_path a) (oa_format a) (oa_prune a) (oa_terrain a) s -> In u (sc_buildings s ++ [sc_terrain s]) -> file_safe (u_name u)) ->
  left_alone (oa_format a) d (w_fs w) (w_fs w') ->
  exists w'' V R, ortho (PArgs m) w' = (w'', Exit 0 None) /\ same_disk (w_fs w') (w_fs w'') /\
    w_vectors w' = w_vectors w ++ V /\ w_vectors w'' = w_vectors w' ++ V /\ w_rasters w' = w_rasters w ++ R /\ w_rasters w'' = w_rasters w' ++ R.
Proof.
  intros H E LA Rs Np Sf LL. rewrite !(ortho_given_run X build surf prune line listing K G stod m a _ H) in *.
  destruct (ortho_body X build surf prune line listing K G a w) as [w1 [[]|e|]] eqn:B; cbn [finish] in E; try discriminate. injection E as ->. unfold ortho_body in *.
  apply bnd_Ok in B. destruct B as (s & w2 & E1 & B). pose proof E1 as E1'. apply input_complete in E1'. destruct E1' as (Sc & _ & _).
  unfold input_scene in E1. apply bnd_Ok in E1. destruct E1 as (s0 & w0 & E0 & E1). pose proof (read_scene_keeps X build listing (oa_path a) (oa_format a) w) as Kp. rewrite E0 in Kp. cbn [fst] in Kp. subst w0.
  apply bnd_Ok in E1. destruct E1 as (s1 & w1 & E3 & E1). unfold lift in E3. injection E3 as <- E3. apply bnd_Ok in E1. destruct E1 as ([] & w4 & E4 & E1). unfold ret in E1. injection E1 as <- <-.
  assert (forall u, In u (sc_buildings s1 ++ [sc_terrain s1]) -> file_safe (u_name u)) as Ss by (intros u I'; exact (Sf s1 u Sc I')).
  assert (no_nul (parent_path (oa_path a))) as Npar. { intros c I'. apply Np. unfold parent_path in I'. revert I'. generalize (oa_path a). clear. intros l. induction l as [|x l IH]; cbn [removelast]; auto. destruct l; [intros []|]. intros [<-|J]; [now left|right; auto]. }
  assert (no_nul d) as Nd. { destruct Rs as [Rs|[<- _]]; auto. intros c I'. apply Np. rewrite Rs. apply in_or_app; now left. }
  destruct (when_again _ _ _ _ E4) as (L1 & V1 & R1 & P1). { intros Gr E5. apply duals_again; auto. intros u I'. apply Ss, in_or_app; now left. }
  cbv zeta in *. set (dir := parent_path (oa_path a)) in *.
  match type of B with when _ ?y w4 = _ => set (y0 := y) in * end. destruct (when_again _ _ _ _ B) as (L2 & V2 & R2 & P2).
  { intros Sv E5. unfold y0 in E5 |- *. apply bnd_Ok in E5. destruct E5 as (l & w5 & E5 & E6). unfold lift in E5. injection E5 as <- E5. apply bnd_Ok in E6. destruct E6 as ([] & w6 & E6 & E7). apply bnd_Ok in E7. destruct E7 as ([] & w7 & E7 & E8).
    destruct (prints_again dir l (oa_labels a) w4 w6 Npar (print_names _ _ _ E5 Ss) E6) as (La & Va & Ra & Pa).
    destruct (when_again _ _ _ _ E7) as (Lb & Vb & Rb & Pb). { intros _ E9. now apply sum_again. }
    destruct (when_again _ _ _ _ E8) as (Lc & Vc & Rc & Pc).
    { intros _ E9. apply bnd_Ok in E9. destruct E9 as (rs & w8 & E9 & E10). unfold lift in E9. injection E9 as <- E9. destruct (rasters_again dir rs _ _ Npar E10) as (Ld & Vd & Rd' & Pd). exists ([] ++ Ld), ([] ++ Vd), ([] ++ Rd').
      exact (replayed_bnd (lift _) (fun rs => save_building_rasters G dir rs) _ _ _ _ _ _ _ _ _ _ _ (replayed_lift _ _ _ E9) Pd). }
    eexists _, _, _. refine (replayed_bnd (lift _) _ _ _ _ l _ _ _ _ _ _ _ (replayed_lift _ _ _ E5) _). refine (replayed_bnd _ _ _ _ _ _ _ _ _ _ _ _ _ Pa _). exact (replayed_bnd _ _ _ _ _ _ _ _ _ _ _ _ _ Pb Pc). }
  pose proof (read_again _ _ _ _ _ _ LA Rs Nd E0 LL) as Rd.
  pose proof (replayed_bnd _ (fun _ => when (oa_save a) y0) _ _ _ _ _ _ _ _ _ _ _ P1 P2) as P. pose proof (rp_again _ _ _ _ _ _ _ P w' (evolves_refl _)) as Ag.
  eexists _, (V1 ++ V2), (R1 ++ R2). split; [|split; [|split; [|split; [|split]]]].
  - unfold input_scene. unfold bnd at 1 2. rewrite Rd. unfold bnd at 1, lift at 1. rewrite E3. fold dir. unfold bnd at 1 in Ag. unfold bnd at 1.
    destruct (when (oa_graphs a) (save_building_duals surf line dir s1) w') as [w5 [[]|e|]]; [|discriminate Ag|discriminate Ag]. unfold ret at 1. fold y0. rewrite Ag. reflexivity.
  - cbn [w_fs]. intros p. apply (rp_has _ _ _ _ _ _ _ P).
  - exact (rp_shapes _ _ _ _ _ _ _ P).
  - reflexivity.
  - exact (rp_images _ _ _ _ _ _ _ P).
  - reflexivity.
Qed.
Theorem C103_ortho_apart m a w r n : ortho_given stod m a -> no_nul (oa_path a) -> oa_path a = r ++ [n] -> ~ In n [lit "dual_graphs"; lit "vectors"; lit "rasters"; lit "."] ->
  oa_format a = lit "OFF" \/ oa_format a = lit "OBJ" -> resolves (oa_path a) (oa_path a) /\ left_alone (oa_format a) (oa_path a) (w_fs w) (w_fs (fst (ortho (PArgs m) w))).
Proof.
  intros H Np Pa Nn F. split. { right. split; auto. intros q E. rewrite Pa in E. apply app_inj_tail in E as [_ E]. apply Nn. rewrite E. cbn; auto. }
  assert (no_nul (parent_path (oa_path a))) as Npar. { intros c I'. apply Np. rewrite Pa in *. unfold parent_path in I'. rewrite removelast_last in I'. apply in_or_app; now left. }
  destruct (C74_confined X build surf prune line listing K G stod m a w H Npar) as [O _]. apply (only_in_alone _ _ _ _ _ O); auto.
  intros e I'. rewrite Pa. unfold touched in I'. rewrite Pa in I'. unfold parent_path in I'. rewrite removelast_last in I'.
  assert (forall k, In k [lit "dual_graphs"; lit "vectors"; lit "rasters"] -> apart (path_join r k) (r ++ [n])) as A.
  { intros k Ik. rewrite join_word; [apply apart_siblings; intros <-; apply Nn; cbn in *; tauto|destruct Ik as [<-|[<-|[<-|[]]]]; cbn; intuition discriminate|destruct Ik as [<-|[<-|[<-|[]]]]; discriminate]. }
  apply in_app_or in I' as [I'|I'].
  - destruct (oa_graphs a); [|destruct I']. destruct I' as [<-|[]]. apply A. cbn; auto.
  - destruct (oa_save a); [|destruct I']. destruct I' as [<-|I']; [apply A; cbn; auto|]. destruct (rasterizing a); [|destruct I']. destruct I' as [<-|[]]. apply A. cbn; auto.
Qed.
End ORTHO.
End AGAIN.

(** ** Example: the conversion of C92_example run twice *)
Import Props_convert Spec_convert Export Props_export.
Lemma town_names s u : scene_of no_ext (body_of_mesh square_tools) (fun s => Ok s) listed town_disk [lit "town"] (lit "OFF") false true s -> In u (sc_buildings s ++ [sc_terrain s]) -> file_safe (u_name u).
Proof.
  intros (h & d & s0 & Hn & Rs & Rd & ->) Iu. apply Ok_inj in Hn. subst h. apply resolves_location in Rs. change (location [lit "town"]) with [lit "town"] in Rs. subst d. cbn [sh_fmt] in Rd.
  destruct C91_example as (ms & t & I' & B & O & St & Nm & Tk & _).
  rewrite (C91_scene body (body_of_mesh square_tools) no_ext town_disk _ [lit "town"] [(lit "read", true)] [lit "Hut.OFF"] [lit "notes.txt"; lit "terrain.off"] ms t) in Rd; auto.
  - destruct (scene_taken square_tools dq ms t point_default 2154%N exact_dq Tk) as (us & ut & M & F). rewrite M in Rd. apply Ok_inj in Rd. subst s0. cbn [sc_buildings sc_terrain] in Iu.
    assert (map u_name (us ++ [ut]) = [lit "Hut"; lit "terrain"]) as Nu. { rewrite (Forall2_names m_name u_name _ _ _ F), map_app, Nm. destruct St as (? & ? & _ & _ & Nt & _). cbn. now rewrite Nt. }
    apply (in_map u_name) in Iu. rewrite Nu in Iu. destruct Iu as [<-|[<-|[]]]; repeat split; cbn; intuition discriminate.
  - repeat constructor. intros [].
  - now left.
  - intros k [<-|[]]. now apply no_nul_check.
  - intros n H. change (In n town_ls) in H. destruct H as [<-|[<-|[<-|[]]]]; now apply no_nul_check.
Qed.
Example C103_example : exists w' w'', let convert := format_main no_ext (body_of_mesh square_tools) b_surface (node_mesh dq) (fun s => Ok s) (fun _ _ => Ok []) listed (PArgs town_map) in
  convert (mkWorld town_disk [] []) = (w', Exit 0 None, []) /\ convert w' = (w'', Exit 0 None, []) /\ same_disk (w_fs w') (w_fs w'') /\ w_fs w' [lit "town.obj"] <> None.
Proof.
  cbv zeta. destruct C92_example as (Gv & f & ys & c & Run & Fc & _ & _).
  assert (forall p, In p [[lit "town"]; [lit "town.obj"]] -> no_nul p) as N by (intros p [<-|[<-|[]]] k [<-|[]]; now apply no_nul_check).
  assert (resolves (fa_path town_a) [lit "town"]) as Rs by (apply resolves_location; reflexivity).
  destruct (C103_format no_ext (body_of_mesh square_tools) b_surface (fun s => Ok s) (fun _ _ => Ok []) listed (node_mesh dq) town_map town_a (mkWorld town_disk [] []) _ _ [lit "town"] Gv Run) as (w'' & R2 & Sd & _ & _); auto.
  - intros f1 f2 d _. reflexivity.
  - apply N. now left.
  - apply N. right. now left.
  - exact town_names.
  - apply (C103_format_apart no_ext (body_of_mesh square_tools) b_surface (fun s => Ok s) (fun _ _ => Ok []) listed (node_mesh dq) town_map town_a (mkWorld town_disk [] []) _ _ [lit "town"] Gv Run).
    + apply N. now left.
    + apply N. right. now left.
    + exact town_names.
    + apply (apart_siblings []). discriminate.
    + discriminate.
    + now left.
  - exists (mkWorld f [] []), w''. split; [exact Run|]. split; [exact R2|]. split; [exact Sd|]. cbn [w_fs]. rewrite Fc. discriminate.
Qed.
