(** * Property C78: GDAL driver registration and dataset lifetime over histories. *)
From Coq Require Import String.
From Verif Require Import Base Dbl Decimal Shadow Streams Handlers Spec_io Handlers_proofs Gdal_hist.
Close Scope string_scope.

(** ** Specification *)
Definition op_path {R V} (o : gop R V) : path :=
  match o with RasterRead p _ | VectorRead p _ | RasterWrite p _ _ | VectorWrite p _ _ _ => p end.
Definition op_modes {R V} (o : gop R V) : modes :=
  match o with RasterRead _ m | VectorRead _ m | RasterWrite _ m _ | VectorWrite _ m _ _ => m end.
Definition is_read {R V} (o : gop R V) : Prop := match o with RasterRead _ _ | VectorRead _ _ => True | _ => False end.
Definition is_write {R V} (o : gop R V) : Prop := match o with RasterRead _ _ | VectorRead _ _ => False | _ => True end.
(** what a permitted read of an existing file gives when drivers are registered *)
Definition opened_value {Dr Dv R V} (G : gdal Dr Dv R V) (f : fs) (o : gop R V) (r : outcome (gval R V)) : Prop :=
  match o with
  | RasterRead p _ => (g_open_r G f p = None /\ r = Throw RuntimeError) \/ exists d, g_open_r G f p = Some d /\ r = omap GRaster (g_import_r G (stem p) d)
  | VectorRead p _ => (g_open_v G f p = None /\ r = Throw RuntimeError) \/ exists d, g_open_v G f p = Some d /\ r = omap GVector (g_import_v G (stem p) d)
  | _ => False
  end.
(** a fresh process: nothing registered, nothing open *)
Definition fresh (f : fs) : gstate := mkG false f 0.
(** number of calls that threw after having opened or created a dataset *)
Definition dropped {Dr Dv R V} (G : gdal Dr Dv R V) (s : gstate) (o : gop R V) (r : outcome (gval R V)) : Prop :=
  (exists e, r = Throw e) /\
  match o with
  | RasterRead p m => granted m "read" /\ a_file (gs_fs s) (os_path p) /\ gs_reg s = true /\ exists d, g_open_r G (gs_fs s) p = Some d
  | VectorRead p m => granted m "read" /\ a_file (gs_fs s) (os_path p) /\ gs_reg s = true /\ exists d, g_open_v G (gs_fs s) p = Some d
  | RasterWrite p m x => granted m "write" /\ g_gtiff G = true /\ exists d, snd (g_create_r G x (gs_fs s) p) = Some d
  | VectorWrite p m x _ => granted m "write" /\ g_shape G = true /\ exists d, snd (g_create_v G (gs_fs s) p) = Some d
  end.

Section Proofs.
Context {Dr Dv R V : Type} (G : gdal Dr Dv R V).
Lemma omap_inv {A B} (g : A -> B) (x : outcome A) : omap g x = UB <-> x = UB.
Proof. destruct x; cbn; split; congruence. Qed.
(** effect of one call *)
Lemma step_reg s o : is_map (op_modes o) -> (gs_reg (fst (gstep G s o)) = true <-> gs_reg s = true \/ (is_write o /\ granted (op_modes o) "write")).
Proof.
  intros Hm. destruct o as [p m|p m|p m x|p m x lb]; cbn [gstep op_modes is_write fst gs_reg] in *; try tauto.
  - destruct (raster_handler_write _ _ _ _ _ _ _) as [f' r]. cbn [fst gs_reg]. rewrite orb_true_iff. unfold can_write. change s_write with (lit "write").
    rewrite (mode_granted m "write" Hm). tauto.
  - destruct (vector_handler_write _ _ _ _ _ _ _) as [f' r]. cbn [fst gs_reg]. rewrite orb_true_iff. unfold can_write. change s_write with (lit "write").
    rewrite (mode_granted m "write" Hm). tauto.
Qed.
Lemma step_refused s o : is_map (op_modes o) -> is_write o -> ~ granted (op_modes o) "write" -> gstep G s o = (mkG (gs_reg s) (gs_fs s) (gs_open s), Throw FilesystemError).
Proof.
  intros Hm Hw Hg. destruct o as [p m|p m|p m x|p m x lb]; try destruct Hw; cbn [gstep op_modes] in *;
  (assert (Hc : can_write m = false) by (unfold can_write; change s_write with (lit "write"); now apply (mode_granted_false m "write" Hm)));
  unfold raster_handler_write, vector_handler_write; rewrite Hc; cbn; rewrite orb_false_r, Nat.add_0_r; reflexivity.
Qed.
Lemma step_read_cases s o : is_map (op_modes o) -> is_read o ->
  gs_fs (fst (gstep G s o)) = gs_fs s /\ gs_reg (fst (gstep G s o)) = gs_reg s /\
  (~ granted (op_modes o) "read" \/ ~ a_file (gs_fs s) (os_path (op_path o)) -> snd (gstep G s o) = Throw FilesystemError) /\
  (granted (op_modes o) "read" -> a_file (gs_fs s) (os_path (op_path o)) ->
    (gs_reg s = false -> snd (gstep G s o) = Throw RuntimeError) /\ (gs_reg s = true -> opened_value G (gs_fs s) o (snd (gstep G s o)))).
Proof.
  intros Hm Hr. destruct o as [p m|p m|p m x|p m x lb]; try destruct Hr; cbn [gstep op_modes op_path fst snd gs_reg gs_fs] in *.
  - split; auto. split; auto.
    destruct (C32_gdal_read_proof _ _ (fun q => if gs_reg s then g_open_r G (gs_fs s) q else None) (g_import_r G) (gs_fs s) p m Hm) as [A B]. split.
    { intros H. rewrite (A H). reflexivity. }
    intros H1 H2. destruct (B H1 H2) as [B1 B2]. split; intros E; rewrite E in *.
    + rewrite (B1 eq_refl). reflexivity.
    + cbn [opened_value]. destruct (g_open_r G (gs_fs s) p) as [d|] eqn:O; [right; exists d; split; auto; now rewrite (B2 d eq_refl)|left; split; auto; now rewrite (B1 eq_refl)].
  - split; auto. split; auto.
    destruct (C32_gdal_read_proof _ _ (fun q => if gs_reg s then g_open_v G (gs_fs s) q else None) (g_import_v G) (gs_fs s) p m Hm) as [A B]. split.
    { intros H. rewrite (A H). reflexivity. }
    intros H1 H2. destruct (B H1 H2) as [B1 B2]. split; intros E; rewrite E in *.
    + rewrite (B1 eq_refl). reflexivity.
    + cbn [opened_value]. destruct (g_open_v G (gs_fs s) p) as [d|] eqn:O; [right; exists d; split; auto; now rewrite (B2 d eq_refl)|left; split; auto; now rewrite (B1 eq_refl)].
Qed.
Lemma step_open s o : is_map (op_modes o) -> (dropped G s o (snd (gstep G s o)) -> gs_open (fst (gstep G s o)) = S (gs_open s)) /\
  (~ dropped G s o (snd (gstep G s o)) -> gs_open (fst (gstep G s o)) = gs_open s).
Proof.
  intros Hm. unfold dropped.
  assert (T : forall A B (g : A -> B) (x : outcome A), (exists e, omap g x = Throw e) <-> exists e, x = Throw e).
  { intros A B g [a|e|]; cbn; split; intros [e' H]; try discriminate; eauto. }
  assert (Lk : forall A (b : bool) (x : outcome A), ((exists e, x = Throw e) /\ b = true -> leaked b x = 1%nat) /\ (~ ((exists e, x = Throw e) /\ b = true) -> leaked b x = 0%nat)).
  { intros A b x. unfold leaked. split; [intros [[e ->] ->]; auto|]. intros H. destruct b; auto. destruct x; auto. exfalso; apply H; eauto. }
  assert (Ex : forall A (o : option A), isSome o = true <-> exists d, o = Some d). { intros A [d|]; cbn; split; eauto; intros H; try discriminate. now destruct H. }
  destruct o as [p m|p m|p m x|p m x lb]; cbn [gstep op_modes fst snd gs_open] in *.
  - rewrite T. set (r := gdal_handler_read _ _ _ _ _). set (b := can_read m && is_regular_file (gs_fs s) p && isSome (if gs_reg s then g_open_r G (gs_fs s) p else None)).
    assert (Hb : b = true <-> granted m "read" /\ a_file (gs_fs s) (os_path p) /\ gs_reg s = true /\ exists d, g_open_r G (gs_fs s) p = Some d).
    { unfold b. rewrite !andb_true_iff, is_reg_file, Ex. unfold can_read. change s_read with (lit "read"). rewrite (mode_granted m "read" Hm).
      destruct (gs_reg s); [tauto|]. split; [intros [_ [d H]]; discriminate|intros (_ & _ & H & _); discriminate]. }
    rewrite <- Hb. destruct (Lk _ b r) as [L1 L2]. split; intros H; [rewrite L1 by auto|rewrite L2 by auto]; lia.
  - rewrite T. set (r := gdal_handler_read _ _ _ _ _). set (b := can_read m && is_regular_file (gs_fs s) p && isSome (if gs_reg s then g_open_v G (gs_fs s) p else None)).
    assert (Hb : b = true <-> granted m "read" /\ a_file (gs_fs s) (os_path p) /\ gs_reg s = true /\ exists d, g_open_v G (gs_fs s) p = Some d).
    { unfold b. rewrite !andb_true_iff, is_reg_file, Ex. unfold can_read. change s_read with (lit "read"). rewrite (mode_granted m "read" Hm).
      destruct (gs_reg s); [tauto|]. split; [intros [_ [d H]]; discriminate|intros (_ & _ & H & _); discriminate]. }
    rewrite <- Hb. destruct (Lk _ b r) as [L1 L2]. split; intros H; [rewrite L1 by auto|rewrite L2 by auto]; lia.
  - destruct (raster_handler_write _ _ _ _ _ _ _) as [f' r]. cbn [fst snd gs_open]. rewrite T. set (b := can_write m && g_gtiff G && isSome (snd (g_create_r G x (gs_fs s) p))).
    assert (Hb : b = true <-> granted m "write" /\ g_gtiff G = true /\ exists d, snd (g_create_r G x (gs_fs s) p) = Some d).
    { unfold b. rewrite !andb_true_iff, Ex. unfold can_write. change s_write with (lit "write"). rewrite (mode_granted m "write" Hm). tauto. }
    rewrite <- Hb. destruct (Lk _ b r) as [L1 L2]. split; intros H; [rewrite L1 by auto|rewrite L2 by auto]; lia.
  - destruct (vector_handler_write _ _ _ _ _ _ _) as [f' r]. cbn [fst snd gs_open]. rewrite T. set (b := can_write m && g_shape G && isSome (snd (g_create_v G (gs_fs s) p))).
    assert (Hb : b = true <-> granted m "write" /\ g_shape G = true /\ exists d, snd (g_create_v G (gs_fs s) p) = Some d).
    { unfold b. rewrite !andb_true_iff, Ex. unfold can_write. change s_write with (lit "write"). rewrite (mode_granted m "write" Hm). tauto. }
    rewrite <- Hb. destruct (Lk _ b r) as [L1 L2]. split; intros H; [rewrite L1 by auto|rewrite L2 by auto]; lia.
Qed.
Lemma grun_cons s o l : grun G s (o :: l) = (let (s', r) := gstep G s o in match r with UB => (s', [UB]) | _ => let (s'', rs) := grun G s' l in (s'', r :: rs) end).
Proof. reflexivity. Qed.
End Proofs.

(** Before the first permitted write every read fails, whatever the history; nothing is
    opened and no file changes *)
Theorem C78_no_read_before_a_write : forall Dr Dv R V (G : gdal Dr Dv R V) f l s rs,
  (forall o, In o l -> is_map (op_modes o)) -> (forall o, In o l -> is_write o -> ~ granted (op_modes o) "write") ->
  grun G (fresh f) l = (s, rs) ->
  s = fresh f /\ Forall2 (fun o r => r = Throw RuntimeError /\ is_read o /\ granted (op_modes o) "read" /\ a_file f (os_path (op_path o)) \/
     r = Throw FilesystemError /\ (is_read o -> ~ granted (op_modes o) "read" \/ ~ a_file f (os_path (op_path o)))) l rs.
Proof.
  intros Dr Dv R V G f l. induction l as [|o l IH]; intros s rs Hm Hw H.
  - cbn in H. injection H as <- <-. split; auto.
  - rewrite grun_cons in H. assert (Hmo : is_map (op_modes o)) by (apply Hm; left; auto).
    destruct (step_open G (fresh f) o Hmo) as [_ O]. pose proof (step_reg G (fresh f) o Hmo) as Rg.
    assert (Step : fst (gstep G (fresh f) o) = fresh f /\ (snd (gstep G (fresh f) o) = Throw RuntimeError /\ is_read o /\ granted (op_modes o) "read" /\ a_file f (os_path (op_path o)) \/
     snd (gstep G (fresh f) o) = Throw FilesystemError /\ (is_read o -> ~ granted (op_modes o) "read" \/ ~ a_file f (os_path (op_path o))))).
    { assert (D : is_read o \/ is_write o) by (destruct o; cbn; auto). destruct D as [D|D].
      - destruct (step_read_cases G (fresh f) o Hmo D) as (F1 & F2 & F3 & F4). cbn [fresh gs_fs gs_reg] in *. split.
        + assert (E : gs_open (fst (gstep G (fresh f) o)) = 0%nat). { apply O. intros [_ Dr']. destruct o; try destruct D; cbn in Dr'; destruct Dr' as (_ & _ & Dr' & _); discriminate. }
          destruct (fst (gstep G (fresh f) o)) as [a b c]. cbn in *. subst. reflexivity.
        + destruct (mode_of (op_modes o) (lit "read")) eqn:M.
          * apply (mode_granted _ "read" Hmo) in M. destruct (is_regular_file f (op_path o)) eqn:Rf.
            { apply is_reg_file in Rf. left. split; [apply F4; auto|auto]. }
            { apply is_reg_file_false in Rf. right. split; [apply F3; auto|auto]. }
          * apply (mode_granted_false _ "read" Hmo) in M. right. split; [apply F3; auto|auto].
      - rewrite (step_refused G (fresh f) o Hmo D (Hw o (or_introl eq_refl) D)). cbn [fst snd]. split; [reflexivity|]. right. split; auto. intros D'. destruct o; destruct D, D'. }
    destruct (gstep G (fresh f) o) as [s' r]. cbn [fst snd] in Step. destruct Step as [-> St].
    destruct (grun G (fresh f) l) as [s'' rs''] eqn:Er. destruct (IH s'' rs'') as [-> F]; auto.
    { intros; apply Hm; right; auto. } { intros; apply Hw; auto; right; auto. }
    destruct St as [St|St]; pose proof St as St'; destruct St' as [-> _]; injection H as <- <-; split; auto.
Qed.
Print Assumptions C78_no_read_before_a_write.
(** Registration is permanent, and happens at the first permitted write even if that write
    throws; from then on a permitted read of an existing file depends on GDAL only *)
Theorem C78_registered_iff_written : forall Dr Dv R V (G : gdal Dr Dv R V) f l s rs,
  (forall o, In o l -> is_map (op_modes o)) -> grun G (fresh f) l = (s, rs) -> ~ In UB rs ->
  (gs_reg s = true <-> exists o, In o l /\ is_write o /\ granted (op_modes o) "write").
Proof.
  intros Dr Dv R V G f l s rs Hm H U.
  assert (P : forall l s0 s rs, (forall o, In o l -> is_map (op_modes o)) -> grun G s0 l = (s, rs) -> ~ In UB rs ->
    (gs_reg s = true <-> gs_reg s0 = true \/ exists o, In o l /\ is_write o /\ granted (op_modes o) "write")).
  { clear. induction l as [|o l IH]; intros s0 s rs Hm H U.
    - cbn in H. injection H as <- <-. split; auto. intros [H|(o & [] & _)]; auto.
    - rewrite grun_cons in H. pose proof (step_reg G s0 o (Hm o (or_introl eq_refl))) as Rg. destruct (gstep G s0 o) as [s' r]. cbn [fst] in Rg.
      assert (E : exists s'' rs'', grun G s' l = (s'', rs'') /\ s = s'' /\ ~ In UB rs'').
      { destruct (grun G s' l) as [s'' rs''] eqn:Er. destruct r as [a|e|]; injection H as <- <-; [| |exfalso; apply U; left; auto];
          exists s'', rs''; (split; [auto|split; [auto|intros I; apply U; right; auto]]). }
      destruct E as (s'' & rs'' & E & -> & U'). rewrite (IH s' s'' rs'' (fun o' I => Hm o' (or_intror I)) E U'), Rg. clear. split.
      + intros [[H|H]|(o' & I & H)]; auto; right; [exists o|exists o']; cbn; tauto.
      + intros [H|(o' & [<-|I] & H)]; auto. right. exists o'. auto. }
  rewrite (P l (fresh f) s rs Hm H U). cbn. split; [intros [H1|H1]; [discriminate|auto]|auto].
Qed.
Print Assumptions C78_registered_iff_written.
Theorem C78_reads_once_registered : forall Dr Dv R V (G : gdal Dr Dv R V) s o, is_map (op_modes o) -> is_read o -> gs_reg s = true ->
  gs_fs (fst (gstep G s o)) = gs_fs s /\ gs_reg (fst (gstep G s o)) = true /\
  (granted (op_modes o) "read" -> a_file (gs_fs s) (os_path (op_path o)) -> opened_value G (gs_fs s) o (snd (gstep G s o))) /\
  (~ granted (op_modes o) "read" \/ ~ a_file (gs_fs s) (os_path (op_path o)) -> snd (gstep G s o) = Throw FilesystemError).
Proof.
  intros Dr Dv R V G s o Hm Hr Hg. destruct (step_read_cases G s o Hm Hr) as (A & B & C & D). split; auto. split; [congruence|]. split; auto. intros H1 H2. now apply D.
Qed.
Print Assumptions C78_reads_once_registered.
(** What a write does to its result: refused writes change nothing; a permitted write needs
    the driver and a created dataset, and then exports *)
Theorem C78_write_outcomes : forall Dr Dv R V (G : gdal Dr Dv R V) s p m, is_map m -> granted m "write" ->
  (forall x, let (s', r) := gstep G s (RasterWrite p m x) in
    (g_gtiff G = false -> gs_fs s' = gs_fs s /\ r = Throw RuntimeError) /\
    (g_gtiff G = true -> forall f' o, g_create_r G x (gs_fs s) p = (f', o) ->
       match o with None => r = UB | Some d => gs_fs s' = fst (g_export_r G x d f') /\ r = omap (fun _ => GDone) (snd (g_export_r G x d f')) end)) /\
  (forall x lb, let (s', r) := gstep G s (VectorWrite p m x lb) in
    (g_shape G = false -> gs_fs s' = gs_fs s /\ r = Throw RuntimeError) /\
    (g_shape G = true -> forall f' o, g_create_v G (gs_fs s) p = (f', o) ->
       match o with None => gs_fs s' = f' /\ r = Throw FilesystemError | Some d => gs_fs s' = fst (g_export_v G lb x d f') /\ r = omap (fun _ => GDone) (snd (g_export_v G lb x d f')) end)).
Proof.
  intros Dr Dv R V G s p m Hm Hg. assert (Hc : can_write m = true) by (unfold can_write; change s_write with (lit "write"); now apply (mode_granted m "write" Hm)).
  split; [intros x|intros x lb]; cbn [gstep]; unfold raster_handler_write, vector_handler_write; rewrite Hc.
  - destruct (g_gtiff G); [|split; [intros _; split; reflexivity|discriminate]].
    destruct (g_create_r G x (gs_fs s) p) as [f1 [d|]]; [destruct (g_export_r G x d f1) as [f2 r2] eqn:E|]; (split; [discriminate|]); intros _ f' o H; injection H as <- <-; [rewrite E|]; cbn; auto.
  - destruct (g_shape G); [|split; [intros _; split; reflexivity|discriminate]].
    destruct (g_create_v G (gs_fs s) p) as [f1 [d|]]; [destruct (g_export_v G lb x d f1) as [f2 r2] eqn:E|]; (split; [discriminate|]); intros _ f' o H; injection H as <- <-; [rewrite E|]; cbn; auto.
Qed.
Print Assumptions C78_write_outcomes.
(** A dataset stays open exactly when a call throws after having opened or created it *)
Theorem C78_datasets_left_open : forall Dr Dv R V (G : gdal Dr Dv R V) s o s' r, is_map (op_modes o) -> gstep G s o = (s', r) ->
  (dropped G s o r -> gs_open s' = S (gs_open s)) /\ (~ dropped G s o r -> gs_open s' = gs_open s).
Proof. intros Dr Dv R V G s o s' r Hm E. pose proof (step_open G s o Hm) as H. rewrite E in H. exact H. Qed.
Print Assumptions C78_datasets_left_open.
(** A GDAL whose raster import throws for one name; file "a.tif" exists *)
Definition gdal_ex : gdal nat nat nat nat := mkGdal _ _ _ _ true false
  (fun f p => Some (length p)) (fun f p => None) (fun x f p => (fs_set f (os_path p) (File [])%string, Some 0%nat)) (fun f p => (f, None))
  (fun n d => match n with [] => Throw OutOfRange | _ => Ok d end) (fun n d => Ok d) (fun x d f => (f, Ok tt)) (fun lb x d f => (f, Ok tt)).
Definition gdal_fs : fs := fun p => if path_eqb p [lit "a.tif"] then Some (File []) else if path_eqb p [lit ".tif"] then Some (File []) else match p with [] => Some Dir | _ => None end.
Definition md (r w : bool) : modes := [(lit "read", r); (lit "write", w)].
Example C78_example :
  snd (grun gdal_ex (fresh gdal_fs) [RasterRead [lit "a.tif"] (md true false); RasterWrite [lit "b.tif"] (md true false) 7%nat; VectorWrite [lit "c"] (md false true) 7%nat true;
     RasterRead [lit "a.tif"] (md true false); RasterRead [lit ".tif"] (md true false); RasterRead [lit "d.tif"] (md true false)])
  = [Throw RuntimeError; Throw FilesystemError; Throw RuntimeError; Ok (GRaster 1%nat); Throw OutOfRange; Throw FilesystemError] /\
  gs_open (fst (grun gdal_ex (fresh gdal_fs) [VectorWrite [lit "c"] (md false true) 7%nat true; RasterRead [lit "a.tif"] (md true false); RasterRead [lit ".tif"] (md true false)])) = 1%nat.
Proof. split; vm_compute; reflexivity. Qed.
