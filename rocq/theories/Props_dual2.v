(** * Properties C93, C94, C43, C86: reading the dual graph file, areas and lengths of a node in
    doubles. *)
From Coq Require Import Strings.String.
From Verif Require Import Base Dbl Decimal Round_proofs Scan_proofs Shadow Streams Lines_proofs Handlers Spec_shadow Spec_text Spec_num Spec_arith Spec_io Off_proofs.
From Verif Require Import Geom Surface Spec_surface Surface_proofs Facet_geom Prune_proofs Unode_proofs Projection Raster Cli Spec_cli Edges Spec_edges Edges_proofs Props_surface.
From Verif Require Import Arith_proofs Nearest_proofs Dq_proofs Sum_proofs Rootsq_proofs Tiny_proofs Props_edges Dual Spec_dual Handlers_proofs Scenefile_proofs Props_textout Props_dual Props_cli.
From Coq Require Import QArith Qcanon Qabs Lqa.
Import List.
Close Scope Q_scope.
Open Scope nat_scope.

(** ** C93: the numbers of a line, as a program reads them *)
Lemma dbl_of_N_int n : (n < 2 ^ 53)%N -> is_int (dbl_of_N n) (Z.of_N n).
Proof.
  intros L. unfold dbl_of_N, dec_to_dbl. destruct (Z.of_N n =? 0)%Z eqn:E.
  - apply Z.eqb_eq in E. rewrite E. split; [reflexivity|]. exists 0%Q. split; reflexivity.
  - apply Z.eqb_neq in E. cbn [Z.leb Z.compare]. change (10 ^ 0)%Z with 1%Z. rewrite Z.mul_1_r. change (2 ^ 53)%N with 9007199254740992%N in L.
    destruct (int_double (Z.of_N n)) as [z Z]; [change (2 ^ 53)%Z with 9007199254740992%Z; lia|]. apply (rn64_represents _ _ _ z); auto; try lia. unfold sg, rat. change (Round_proofs.qz 1) with 1%Q. unfold Round_proofs.qz. field.
Qed.
Lemma words_toks {A} (scan : str -> option (A * str)) ws vs : Forall2 (tok scan) ws vs -> toks scan (words ws) vs.
Proof.
  induction 1 as [|w v ws vs T H IH]; [apply toks_end|]. cbn [words]. destruct H as [|w' v' ws vs T' H].
  - rewrite <- (app_nil_r w). apply tok_app_cons; [exact T|exact I|apply toks_end].
  - apply tok_app_cons; [exact T|reflexivity|]. apply toks_sp. exact IH.
Qed.
Theorem C93_reads line d : describes line d -> (N.of_nat (fd_id d) < 2 ^ 53)%N -> (N.of_nat (fd_degree d) < 2 ^ 53)%N ->
  real_double (fd_area d) -> real_double (fd_perimeter d) ->
  (forall q, In q [x3 (fd_centre d); y3 (fd_centre d); z3 (fd_centre d); x3 (fd_normal d); y3 (fd_normal d); z3 (fd_normal d)] -> in_range (this q)) ->
  exists i n a p c v, scan_doubles line = [i; n; a; p] ++ c ++ v /\
    is_int i (Z.of_nat (fd_id d)) /\ is_int n (Z.of_nat (fd_degree d)) /\ reads_back (fd_area d) a /\ reads_back (fd_perimeter d) p /\
    Forall2 (fun q y => exists x, nearest_double (this q) x /\ reads_back x y) [x3 (fd_centre d); y3 (fd_centre d); z3 (fd_centre d)] c /\
    Forall2 (fun q y => exists x, nearest_double (this q) x /\ reads_back x y) [x3 (fd_normal d); y3 (fd_normal d); z3 (fd_normal d)] v.
Proof.
  intros (cx & cy & cz & nx & ny & nz & A1 & A2 & A3 & A4 & A5 & A6 & ->) Li Ld Ra Rp Rg.
  pose proof (proj1 A1 (Rg (x3 (fd_centre d)) ltac:(cbn; auto 8))) as B1. pose proof (proj1 A2 (Rg (y3 (fd_centre d)) ltac:(cbn; auto 8))) as B2. pose proof (proj1 A3 (Rg (z3 (fd_centre d)) ltac:(cbn; auto 8))) as B3.
  pose proof (proj1 A4 (Rg (x3 (fd_normal d)) ltac:(cbn; auto 8))) as B4. pose proof (proj1 A5 (Rg (y3 (fd_normal d)) ltac:(cbn; auto 8))) as B5. pose proof (proj1 A6 (Rg (z3 (fd_normal d)) ltac:(cbn; auto 8))) as B6.
  assert (forall x, real_double x -> tok scan_double (print_dbl x) (via_text x)) as T by (intros x [V F]; now apply tok_double).
  exists (dbl_of_N (N.of_nat (fd_id d))), (dbl_of_N (N.of_nat (fd_degree d))), (via_text (fd_area d)), (via_text (fd_perimeter d)), [via_text cx; via_text cy; via_text cz], [via_text nx; via_text ny; via_text nz].
  split; [|split; [|split; [|split; [|split; [|split]]]]].
  - apply scan_doubles_toks, words_toks. cbn [map app]. constructor; [now apply tok_index|]. constructor; [now apply tok_index|]. repeat (constructor; [apply T; first [assumption|apply B1|apply B2|apply B3|apply B4|apply B5|apply B6]|]). constructor.
  - replace (Z.of_nat (fd_id d)) with (Z.of_N (N.of_nat (fd_id d))) by lia. now apply dbl_of_N_int.
  - replace (Z.of_nat (fd_degree d)) with (Z.of_N (N.of_nat (fd_degree d))) by lia. now apply dbl_of_N_int.
  - now apply reads_back_via.
  - now apply reads_back_via.
  - constructor; [exists cx; split; auto; apply reads_back_via; auto; apply B1|]. constructor; [exists cy; split; auto; apply reads_back_via; auto; apply B2|]. constructor; [exists cz; split; auto; apply reads_back_via; auto; apply B3|]. constructor.
  - constructor; [exists nx; split; auto; apply reads_back_via; auto; apply B4|]. constructor; [exists ny; split; auto; apply reads_back_via; auto; apply B5|]. constructor; [exists nz; split; auto; apply reads_back_via; auto; apply B6|]. constructor.
Qed.

(** ** C94: the area of a facet and of a node *)
(** a triangle *)
Lemma tri_rotate a b c : tri_sq_area c a b = tri_sq_area a b c.
Proof. unfold tri_sq_area, dot, vsub, Qcdiv; cbn [x3 y3 z3]. ring. Qed.
Lemma tri_vector a b c : dot (area_vector [a; b; c]) (area_vector [a; b; c]) = tri_sq_area a b c.
Proof.
  unfold area_vector, newell, cyclic_pairs, tri_sq_area. cbn [combine app map fst snd]. unfold vsum; cbn [fold_right]. unfold dot, vadd, vsub, vscale, cross, v0; cbn [x3 y3 z3]. unfold Qcdiv.
  replace (/ qz 4)%Qc with (/ qz 2 * / qz 2)%Qc by (apply Qceqb_eq; vm_compute; reflexivity). ring.
Qed.
Lemma corner_triangle s f a b c : valid s -> In f (s_facets s) -> boundary s f [a; b; c] -> corner_sq_area s f = tri_sq_area a b c.
Proof.
  intros V I (r & C & E). destruct r as [|h1 [|h2 [|h3 r]]]; try discriminate. cbn [map] in E. injection E as -> -> ->. destruct C as [Nd C]. cbn [map app] in C. injection C as N0 N1 N2.
  assert (In h2 (s_halfedges s)) as J2. { destruct (va_cycle s V f I) as (r & _ & Cr & Hr). assert (r = [h1; h2]) as -> by (eapply cycle_head_fun; [exact Cr|split; auto; cbn [map app]; congruence]). apply (Hr h2). cbn; auto. }
  unfold corner_sq_area, source, target. destruct (va_vert s V h2 J2) as [W _]. rewrite N2 in W. rewrite W, N0. apply tri_rotate.
Qed.
Theorem C94_triangle s f a b c : valid s -> In f (s_facets s) -> boundary s f [a; b; c] ->
  rounded_length (tri_sq_area a b c) (facet_area s f) /\ dot (area_vector [a; b; c]) (area_vector [a; b; c]) = tri_sq_area a b c.
Proof. intros V I B. split; [|apply tri_vector]. rewrite <- (corner_triangle s f a b c V I B), facet_area_corner. exact (root_d_rounded _ (corner_nonneg s f)). Qed.
(** any facet: the triangle of its first corner, whatever the rest *)
Theorem C94_corner s f : rounded_length (corner_sq_area s f) (facet_area s f).
Proof. rewrite facet_area_corner. exact (root_d_rounded _ (corner_nonneg s f)). Qed.
(** the area of a node: these areas, added in the order of the facets *)
Theorem C94_total s : exists areas, Forall2 (fun f a => rounded_length (corner_sq_area s f) a) (s_facets s) areas /\ running_sum dzero areas (unode_area s).
Proof.
  exists (map (facet_area s) (s_facets s)). assert (forall l, Forall2 (fun f a => rounded_length (corner_sq_area s f) a) l (map (facet_area s) l)) as F by (induction l; cbn [map]; constructor; auto using C94_corner).
  split; auto. unfold unode_area. rewrite (fold_map dadd). apply sum_fine; [|apply zero_fine]. specialize (F (s_facets s)). induction F as [|f a l as' R _ IH]; constructor; auto. now apply rounded_fine in R.
Qed.
(** ** C43, C86: the sums of lengths, in doubles *)
Theorem C43_rounded s : rounded_perimeter s (s_halfedges s) (edge_total s).
Proof. apply sides_sum. Qed.
Theorem C86_rounded s k r : border_total (Some k) s = Ok r ->
  exists ys, Forall2 (fun h y => rounded_length (sqdist (target s h) (target s (s_next s h))) y) (skipn k (s_halfedges s)) ys /\ running_sum dzero ys r.
Proof.
  intros H. apply Ok_inj in H. subst r. set (g := fun h => root_d (sqdist (target s h) (target s (s_next s h)))). exists (map g (skipn k (s_halfedges s))).
  assert (forall l, Forall2 (fun h y => rounded_length (sqdist (target s h) (target s (s_next s h))) y) l (map g l)) as F.
  { induction l; cbn [map]; constructor; auto. apply root_d_rounded. apply dot_nonneg. }
  split; auto. rewrite (fold_map dadd). apply sum_fine; [|apply zero_fine]. specialize (F (skipn k (s_halfedges s))). change (Forall fine (map g (skipn k (s_halfedges s)))). induction F as [|f a l as' R _ IH]; constructor; auto. now apply rounded_fine in R.
Qed.
Lemma root_int x n : (0 <= n < 2 ^ 53)%Z -> x = Geom.qz (n * n) -> is_int (root_d x) n.
Proof.
  intros P ->. unfold root_d. destruct (Z.eq_dec n 0) as [->|N0]; [split; [reflexivity|]; exists 0%Q; split; reflexivity|].
  assert (this (Geom.qz (n * n)) == inject_Z n * inject_Z n)%Q as S. { unfold Geom.qz. rewrite this_Q2Qc, inject_Z_mult. reflexivity. }
  apply int_root_of_square; [lia|]. destruct (dq_correct (Geom.qz (n * n))) as [N _]. apply (closest_ext (this (Geom.qz (n * n)))); auto. apply nearest_closest, N.
  destruct (int_square_range n ltac:(lia)) as [_ R]. unfold in_range in *. now rewrite S.
Qed.
Lemma int_sum ys ns : Forall2 is_int ys ns -> Forall (fun n => 0 <= n)%Z ns -> forall t a, is_int t a -> (0 <= a)%Z -> (a + fold_right Z.add 0 ns < 2 ^ 53)%Z -> is_int (fold_left dadd ys t) (a + fold_right Z.add 0 ns)%Z.
Proof.
  induction 1 as [|y n ys ns Hy H IH]; intros P t a T Pa L; cbn [fold_left fold_right] in *; [now rewrite Z.add_0_r|].
  inversion P as [|? ? P1 P2]. subst. rewrite Z.add_assoc in *. assert (0 <= fold_right Z.add 0 ns)%Z by (clear -P2; induction P2; cbn; lia). apply IH; auto; [apply int_add; auto; lia|lia].
Qed.
(** edges with integer lengths: exactly twice their sum *)
Theorem C43_integers s E ns : valid s -> Permutation (s_halfedges s) (E ++ map (s_opp s) E) ->
  Forall2 (fun h n => sqdist (source s h) (target s h) = Geom.qz (n * n) /\ (0 <= n)%Z) E ns ->
  (2 * fold_right Z.add 0 ns < 2 ^ 53)%Z -> is_int (edge_total s) (2 * fold_right Z.add 0 ns)%Z.
Proof.
  intros V Pm F L.
  assert (forall h, In h E -> exists n, sqdist (source s h) (target s h) = Geom.qz (n * n) /\ (0 <= n)%Z) as EF.
  { clear -F. induction F as [|h n E ns H _ IH]; intros x X; [easy|]. destruct X as [<-|X]; eauto. }
  set (sq := fun h => sqdist (source s h) (target s h)).
  assert (forall h, In h E -> sq (s_opp s h) = sq h) as So.
  { intros h I. assert (In h (s_halfedges s)) as J by (eapply Permutation_in; [symmetry; exact Pm|apply in_or_app; now left]). unfold sq, source, target. destruct (va_opp s V h J) as (_ & -> & _). apply sqdist_sym. }
  (* a length for every halfedge *)
  assert (Forall2 (fun h n => sq h = Geom.qz (n * n) /\ (0 <= n)%Z) (E ++ map (s_opp s) E) (ns ++ ns)) as FF.
  { apply Forall2_app; auto. clear -F So. induction F as [|h n E ns H _ IH]; cbn [map]; constructor.
    - rewrite So by now left. exact H.
    - apply IH. intros x X. apply So. now right. }
  assert (exists ms, Permutation ms (ns ++ ns) /\ Forall2 (fun h n => sq h = Geom.qz (n * n) /\ (0 <= n)%Z) (s_halfedges s) ms) as (ms & Pms & Fm).
  { destruct (Permutation_Forall2 (Permutation_sym Pm) FF) as (ms & A & B). exists ms. split; auto. now symmetry. }
  assert (fold_right Z.add 0 ms = 2 * fold_right Z.add 0 ns)%Z as Sm.
  { transitivity (fold_right Z.add 0 (ns ++ ns))%Z.
    - clear -Pms. induction Pms; cbn [fold_right]; lia.
    - rewrite fold_right_app. assert (forall a l, fold_right Z.add a l = fold_right Z.add 0 l + a)%Z as G by (intros a; induction l; cbn [fold_right]; lia). rewrite G. lia. }
  rewrite <- Sm in *. unfold edge_total. rewrite (fold_map dadd). rewrite <- (Z.add_0_l (fold_right Z.add 0%Z ms)). apply int_sum.
  - clear Pms Sm Pm. revert L. induction Fm as [|h n l ms (A & B) Fm IH]; intros L; cbn [map]; constructor; cbn [fold_right] in L.
    + unfold side_d. fold (target s h) (source s h). rewrite sqdist_sym. apply root_int; auto. assert (0 <= fold_right Z.add 0 ms)%Z by (clear -Fm; induction Fm as [|? ? ? ? [_ ?] _ ?]; cbn [fold_right]; lia). lia.
    + apply IH. lia.
  - clear -Fm. induction Fm as [|h n l ns (A & B) _ IH]; constructor; auto.
  - split; [reflexivity|]. exists 0%Q. split; reflexivity.
  - lia.
  - lia.
Qed.
(** ** Cases *)
(** two triangles at height 3, the halves of a rectangle of 3 by 4 *)
Definition raised : surface := set_face_ids (build_surface [pt 1 1 3; pt 4 1 3; pt 4 5 3; pt 1 5 3] [[0; 1; 2]; [2; 3; 0]]).
Lemma raised_valid : valid raised. Proof. apply check_valid. vm_compute. reflexivity. Qed.
Example C93_example : dual_text facet_line raised =
  Ok (lit "0 3 6 12 3 2.33333 2 0 0 1" ++ [nl_char] ++ lit "1 3 6 12 2 3.66667 2 0 0 1" ++ [nl_char] ++ lit "1 1" ++ [nl_char] ++ lit "1 1" ++ [nl_char] ++ [nl_char]).
Proof. vm_compute. reflexivity. Qed.
Example C43_total_example : is_int (edge_total raised) 38.
Proof. split; [reflexivity|]. eexists. split; [vm_compute; reflexivity|]. reflexivity. Qed.
Example C94_example : is_int (unode_area raised) 12 /\ exists a b c, boundary raised 0 [a; b; c] /\ tri_sq_area a b c = qz 36.
Proof.
  split; [split; [reflexivity|]; eexists; split; [vm_compute; reflexivity|]; reflexivity|].
  exists (pt 4 1 3), (pt 4 5 3), (pt 1 1 3). split; [|apply Qceqb_eq; vm_compute; reflexivity]. apply (boundary_points raised 0); [apply raised_valid|now left|]. vm_compute. reflexivity.
Qed.
(** a square of side 1 has area 1/2 *)
Definition plate1 : surface := build_surface [pt 0 0 0; pt 1 0 0; pt 1 1 0; pt 0 1 0] [[0; 1; 2; 3]].
Lemma plate1_valid : valid plate1. Proof. apply check_valid. vm_compute. reflexivity. Qed.
Lemma root_one y : rounded_length (qz 1) y -> (1 <= dval y)%Q.
Proof.
  intros [A _]. assert (in_range (this (qz 1))) as I by reflexivity. destruct (A I) as (d & [Rd Nd] & (Ry & Py & H)). set (one := S754_finite false (2 ^ 52) (-52)). assert (real_double one /\ (dval one == 1)%Q) as [Ro Vo] by (split; [split; reflexivity|reflexivity]).
  destruct (Nd one Ro) as [B _]. rewrite Vo in B. change (this (qz 1)) with 1%Q in B. assert (Qabs (1 - 1) == 0)%Q as E0 by reflexivity. rewrite E0 in B. pose proof (Qabs_nonneg (dval d - 1)) as C. assert (dval d == 1)%Q as Vd.
  { apply Qabs_Qle_condition in B. lra. }
  destruct (H one Ro) as [L _]; [rewrite Vo; lra|]. destruct (Qlt_le_dec (dval y) 1) as [G|]; auto. assert (dval y < dval one)%Q as G' by now rewrite Vo. specialize (L G'). rewrite Vo, Vd in L. nra.
Qed.
Theorem C94_polygon_refuted : ~ (forall s f pts, valid s -> In f (s_facets s) -> boundary s f pts -> coplanar pts -> rounded_length (dot (area_vector pts) (area_vector pts)) (facet_area s f)).
Proof.
  intros H. assert (boundary plate1 0 [pt 1 0 0; pt 1 1 0; pt 0 1 0; pt 0 0 0]) as B by (apply boundary_points; [apply plate1_valid|now left|vm_compute; reflexivity]).
  specialize (H plate1 0 _ plate1_valid ltac:(now left) B). assert (coplanar [pt 1 0 0; pt 1 1 0; pt 0 1 0; pt 0 0 0]) as Cp.
  { exists (mkPlane3 (pt 0 0 1) 0%Qc). split; [discriminate|]. intros p [<-|[<-|[<-|[<-|[]]]]]; apply Qceqb_eq; vm_compute; reflexivity. }
  specialize (H Cp). assert (dot (area_vector [pt 1 0 0; pt 1 1 0; pt 0 1 0; pt 0 0 0]) (area_vector [pt 1 0 0; pt 1 1 0; pt 0 1 0; pt 0 0 0]) = qz 1) as E by (apply Qceqb_eq; vm_compute; reflexivity).
  rewrite E in H. apply root_one in H. assert (facet_area plate1 0 = S754_finite false 4503599627370496 (-53)) as Ea by (vm_compute; reflexivity). rewrite Ea in H. revert H. apply Qlt_not_le. vm_compute. reflexivity.
Qed.
(** pruning can make the dual graph undefined: two triangles whose union has a straight corner *)
Definition bent : surface := build_surface [pt 0 0 0; pt 1 0 0; pt 2 0 0; pt 0 1 0] [[0; 1; 3]; [1; 2; 3]].
Theorem C93_pruned_undefined : exists s s' t, valid s /\ dual_text facet_line s = Ok t /\ prune_surface (fun s => s) s (Ok s') /\ valid s' /\
  (forall f pts, In f (s_facets s') -> boundary s' f pts -> area_vector pts <> v0) /\ dual_text facet_line s' = UB.
Proof.
  assert (exists s1, run_fuel 9 0 bent = Some (1, Ok s1) /\ check (set_face_ids s1) = true /\ s_facets (set_face_ids s1) = [0] /\ dual_text facet_line (set_face_ids s1) = UB /\
    facet_points (set_face_ids s1) 0 = Ok [pt 1 0 0; pt 2 0 0; pt 0 1 0; pt 0 0 0]) as (s1 & R & C & Fc & D & Fp).
  { eexists. split; [vm_compute; reflexivity|]. split; [vm_compute; reflexivity|]. split; [vm_compute; reflexivity|]. split; vm_compute; reflexivity. }
  assert (exists t, dual_text facet_line bent = Ok t) as [t T] by (eexists; vm_compute; reflexivity).
  exists bent, (set_face_ids s1), t. split; [apply check_valid; vm_compute; reflexivity|]. split; auto. split.
  { apply run_fuel_sound in R. destruct R as (k & _ & R). now apply (prune_ok (fun s => s) bent k s1). }
  pose proof (check_valid _ C) as V. split; auto. split; auto. intros f pts I B. rewrite Fc in I. destruct I as [<-|[]]. apply (boundary_points _ 0) in B; auto; [|rewrite Fc; now left]. rewrite Fp in B. apply Ok_inj in B. subst pts.
  intros E. assert (p3_eqb (area_vector [pt 1 0 0; pt 2 0 0; pt 0 1 0; pt 0 0 0]) v0 = false) as F by (vm_compute; reflexivity). apply p3_eqb_neq in F. contradiction.
Qed.

(** ** C93: orthoproject --graphs *)
Theorem C93_program {S} X (build : mesh -> outcome S) surf prune listing K G stod m a w w' s :
  ortho_given stod m a -> oa_graphs a = true -> ortho_main X build surf prune facet_line listing K G stod (PArgs m) w = (w', Exit 0 None) ->
  let dir := parent_path (oa_path a) in no_nul dir ->
  scene_of X build prune listing (w_fs w) (oa_path a) (oa_format a) (oa_prune a) (oa_terrain a) s ->
  NoDup (map u_name (sc_buildings s)) -> (forall u, In u (sc_buildings s) -> file_safe (u_name u) /\ w_fs w (txt_file dir "dual_graphs" (u_name u)) <> Some Dir) ->
  forall u, In u (sc_buildings s) -> valid (surf (u_surf u)) ->
  exists t lines rows, w_fs w' (txt_file dir "dual_graphs" (u_name u)) = Some (File t) /\ readlines t = lines ++ map spaced rows ++ [[]] /\
    Forall2 (fun f line => exists d, measured (surf (u_surf u)) f d /\ describes line d) (s_facets (surf (u_surf u))) lines /\
    Forall2 (row_about (surf (u_surf u))) (s_facets (surf (u_surf u))) rows.
Proof.
  intros H Gr E dir N Sc Nd Sf u I V. destruct (C74_duals X build surf prune facet_line listing K G stod m a w w' s H Gr E N Sc Nd Sf u I) as (t & T & W).
  destruct (C93_text _ _ V T) as (lines & rows & A & B & C). exists t, lines, rows. auto.
Qed.

(** ** C75, C93: cityformat --graphs *)
Lemma off_files_other {S} (to_mesh : unode S -> mesh) d m q us : no_nul d -> (forall u, In u us -> file_safe (u_name u) /\ q <> d ++ [u_name u ++ lit ".off"]) ->
  forall f, fst (write_off_files to_mesh f d m us) q = f q.
Proof.
  intros N. induction us as [|u us IH]; intros H f; cbn [write_off_files]; [reflexivity|]. change (format_extension off) with (Ok (lit ".off")). cbv beta iota.
  destruct (H u (or_introl eq_refl)) as [(Sl & Nu & _) Hq]. assert (path_join d (u_name u ++ lit ".off") = d ++ [u_name u ++ lit ".off"]) as J by (apply path_join_off; exact Sl).
  assert (fst (off_handler_write f (path_join d (u_name u ++ lit ".off")) m (to_mesh u)) q = f q) as W.
  { unfold off_handler_write. destruct (can_write m); cbn [fst]; [|reflexivity]. symmetry. apply fwrite_other. rewrite J, os_path_plain; auto.
    intros c Hc. apply in_app_iff in Hc. destruct Hc as [Hc|[<-|[]]]; [now apply N|]. intros X. apply in_app_iff in X. destruct X as [X|X]; [auto|]. cbn in X. repeat (destruct X as [X|X]; [discriminate X|]). exact X. }
  destruct (off_handler_write f _ m (to_mesh u)) as [g [[]|e|]]; cbn [fst] in W; auto. rewrite IH; auto. intros v Hv. apply H. now right.
Qed.
Lemma txt_not_off (n x : str) : n ++ lit ".txt" <> x ++ lit ".off".
Proof. intros H. apply (f_equal (@rev ascii)) in H. rewrite !rev_app_distr in H. cbn in H. discriminate H. Qed.
Lemma write_keeps_txt {S} (to_mesh : unode S -> mesh) f h s d x n : no_nul (sh_path h) -> (forall u, In u (sc_buildings s ++ [sc_terrain s]) -> file_safe (u_name u)) ->
  sh_path h <> txt_file d x n -> fst (scene_write to_mesh f h s) (txt_file d x n) = f (txt_file d x n).
Proof.
  intros N Sf Ne. assert (forall u : unode S, txt_file d x n <> sh_path h ++ [u_name u ++ lit ".off"]) as Nu.
  { intros u. unfold txt_file. change (d ++ [lit x; n ++ lit ".txt"]) with (d ++ [lit x] ++ [n ++ lit ".txt"]). rewrite app_assoc. intros E. apply app_inj_tail in E. destruct E as [_ E]. exact (txt_not_off _ _ E). }
  unfold scene_write. destruct (sh_fmt h); [reflexivity|reflexivity| |].
  - assert (fst (if negb (fs_exists f (sh_path h)) then create_directory f (sh_path h) else if is_directory f (sh_path h) then (f, Ok tt) else (f, Throw RuntimeError)) (txt_file d x n) = f (txt_file d x n)) as W.
    { destruct (negb _); [|destruct (is_directory f _); reflexivity]. unfold create_directory. rewrite (os_path_plain _ N). destruct (sh_path h) as [|c p]; [reflexivity|].
      destruct (f (removelast (c :: p))) as [[|]|]; destruct (f (c :: p)) as [[|]|]; cbn [fst]; try reflexivity. symmetry. apply fs_set_other. congruence. }
    destruct (if negb _ then _ else _) as [g [[]|e|]]; cbn [fst] in *; auto.
    assert (fst (write_off_files to_mesh g (sh_path h) (sh_modes h) (sc_buildings s)) (txt_file d x n) = g (txt_file d x n)) as W1.
    { apply off_files_other; auto. intros u Hu. split; [apply Sf, in_or_app; now left|apply Nu]. }
    destruct (write_off_files to_mesh g _ _ (sc_buildings s)) as [g1 [[]|e|]]; cbn [fst] in *; [|congruence|congruence]. rewrite off_files_other; auto; [congruence|]. intros u Hu. split; [apply Sf, in_or_app; now right|apply Nu].
  - unfold obj_handler_write. destruct (can_write _); [|reflexivity]. assert (forall t, fwrite f (oh_path (obj_handler_of_scene to_mesh (sh_path h) s (sh_modes h))) t (txt_file d x n) = f (txt_file d x n)) as W.
    { intros t. symmetry. apply fwrite_other. change (oh_path _) with (sh_path h). rewrite os_path_plain; auto. }
    destruct (obj_write _); cbn [fst]; apply W.
Qed.
Theorem C75_duals {S} X (build : mesh -> outcome S) surf to_mesh prune line listing m a w w' t s :
  format_given m a -> fa_graphs a = true -> format_main X build surf to_mesh prune line listing (PArgs m) w = (w', Exit 0 None, t) ->
  let dir := parent_path (fa_path a) in no_nul dir -> no_nul (fa_out a) ->
  scene_of X build prune listing (w_fs w) (fa_path a) (fa_format a) (fa_prune a) (fa_terrain a) s ->
  NoDup (map u_name (sc_buildings s)) -> (forall u, In u (sc_buildings s ++ [sc_terrain s]) -> file_safe (u_name u)) ->
  (forall u, In u (sc_buildings s) -> fa_out a <> txt_file dir "dual_graphs" (u_name u) /\ w_fs w (txt_file dir "dual_graphs" (u_name u)) <> Some Dir) ->
  forall u, In u (sc_buildings s) -> exists t, dual_text line (surf (u_surf u)) = Ok t /\ w_fs w' (txt_file dir "dual_graphs" (u_name u)) = Some (File t).
Proof.
  intros H Gr E dir N No Sc ND Sf Sg u I. rewrite (format_given_run X build surf to_mesh prune line listing m a w H) in E.
  destruct (format_body X build surf to_mesh prune line listing (Some a) w) as [w1 [t1|e|]] eqn:B; try discriminate. injection E as -> ->.
  cbn [format_body] in B. apply bnd_Ok in B. destruct B as (s' & w0 & E0 & B). pose proof E0 as E0'. apply input_complete in E0'. destruct E0' as (Sc' & _ & _).
  assert (s' = s) as ->. { destruct Sc as (h & d & s0 & A1 & D1 & A2 & A3), Sc' as (h' & d' & s0' & B1 & D2 & B2 & B3). rewrite A1 in B1. apply Ok_inj in B1. subst h'. apply resolves_location in D1, D2. subst d d'. rewrite A2 in B2. apply Ok_inj in B2. subst s0'. destruct (fa_prune a); congruence. }
  rewrite Gr in E0. destruct (dual_texts X build surf prune line listing _ _ _ _ _ _ _ N E0 ND) with (u := u) as (t2 & T1 & T2); auto.
  { intros v Iv. split; [apply Sf, in_or_app; now left|apply Sg, Iv]. }
  exists t2. split; auto. fold dir in T2. rewrite <- T2. apply bnd_Ok in B. destruct B as ([] & w2 & E1 & B). unfold ret in B. injection B as <- <-.
  unfold write_scene in E1. apply bnd_Ok in E1. destruct E1 as (h & w3 & E1 & E2). unfold lift in E1. injection E1 as <- E1. unfold on_fs in E2.
  assert (sh_path h = fa_out a) as Hp. { unfold scene_handler_named in E1. apply bind_Ok in E1. destruct E1 as (fm & _ & E1). unfold scene_handler_make in E1. apply bind_Ok in E1. destruct E1 as (? & _ & E1). apply Ok_inj in E1. now subst h. }
  pose proof (write_keeps_txt to_mesh (w_fs w0) h s dir "dual_graphs" (u_name u)) as K. rewrite Hp in K. specialize (K No Sf (proj1 (Sg u I))).
  destruct (scene_write to_mesh (w_fs w0) h s) as [f r]. injection E2 as <- ->. exact K.
Qed.
Theorem C93_format {S} X (build : mesh -> outcome S) surf to_mesh prune listing m a w w' t s :
  format_given m a -> fa_graphs a = true -> format_main X build surf to_mesh prune facet_line listing (PArgs m) w = (w', Exit 0 None, t) ->
  let dir := parent_path (fa_path a) in no_nul dir -> no_nul (fa_out a) ->
  scene_of X build prune listing (w_fs w) (fa_path a) (fa_format a) (fa_prune a) (fa_terrain a) s ->
  NoDup (map u_name (sc_buildings s)) -> (forall u, In u (sc_buildings s ++ [sc_terrain s]) -> file_safe (u_name u)) ->
  (forall u, In u (sc_buildings s) -> fa_out a <> txt_file dir "dual_graphs" (u_name u) /\ w_fs w (txt_file dir "dual_graphs" (u_name u)) <> Some Dir) ->
  forall u, In u (sc_buildings s) -> valid (surf (u_surf u)) ->
  exists t lines rows, w_fs w' (txt_file dir "dual_graphs" (u_name u)) = Some (File t) /\ readlines t = lines ++ map spaced rows ++ [[]] /\
    Forall2 (fun f line => exists d, measured (surf (u_surf u)) f d /\ describes line d) (s_facets (surf (u_surf u))) lines /\
    Forall2 (row_about (surf (u_surf u))) (s_facets (surf (u_surf u))) rows.
Proof.
  intros H Gr E dir N No Sc Nd Sf Sg u I V. destruct (C75_duals X build surf to_mesh prune facet_line listing m a w w' t s H Gr E N No Sc Nd Sf Sg u I) as (t' & T & W).
  destruct (C93_text _ _ V T) as (lines & rows & A & B & C). exists t', lines, rows. auto.
Qed.
(** a run of each program meets the hypotheses *)
Example C93_program_example :
  let run := ortho_main no_ext (fun _ => Ok raised) (fun s => s) (fun s => Ok s) facet_line (fun _ _ => []) Rect.rects gdal_fine stod_one (PArgs ortho_map) start in
  ortho_given stod_one ortho_map ortho_a /\ oa_graphs ortho_a = true /\ snd run = Exit 0 None /\
  w_fs (fst run) (txt_file [lit "d"] "dual_graphs" (lit "hut")) = Some (File (match dual_text facet_line raised with Ok t => t | _ => [] end)).
Proof. split; [apply C74_arguments; vm_compute; reflexivity|]. split; [reflexivity|]. split; vm_compute; reflexivity. Qed.
Example C93_format_example :
  let run := format_main no_ext (fun _ => Ok raised) (fun s => s) (fun u => snd (mesh_set_name mesh_empty (u_name u))) (fun s => Ok s) facet_line (fun _ _ => []) (PArgs (format_map (lit "d/out") (lit "OFF"))) start in
  (exists a, format_given (format_map (lit "d/out") (lit "OFF")) a /\ fa_graphs a = true) /\ snd (fst run) = Exit 0 None /\
  w_fs (fst (fst run)) (txt_file [lit "d"] "dual_graphs" (lit "hut")) = Some (File (match dual_text facet_line raised with Ok t => t | _ => [] end)).
Proof. split; [eexists; split; [apply C75_arguments; vm_compute; reflexivity|reflexivity]|]. split; vm_compute; reflexivity. Qed.
