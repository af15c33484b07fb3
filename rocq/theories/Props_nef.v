(** * Theorem C90: nodes made of several meshes. *)
From Verif Require Import Base Dbl Geom Decimal Shadow Spec_shadow Streams Spec_text Handlers Spec_io Surface Spec_surface Props_surface Raster Export Spec_export Props_export Nef.
From Coq Require Import Permutation.
From Coq Require Import ZArith Lia.
Open Scope nat_scope.

(** what a Nef polyhedron means: [solid s] are the points of the solid (or sheet) bounded by the
    surface [s], [pts x] those of the Nef polyhedron [x] *)
Record nef_laws {N} (C : nef_tools N) (solid : surface -> p3 -> Prop) (pts : N -> p3 -> Prop) : Prop := mkNefLaws {
  law_empty : forall p, ~ pts (n_empty C) p;
  law_from : forall s x, n_from C s = Ok x -> forall p, pts x p <-> solid s p;
  law_union : forall x y p, pts (n_union C x y) p <-> pts x p \/ pts y p;
  law_convert : forall x s, n_simple C x = true -> n_convert C x = Ok s -> forall p, solid s p <-> pts x p
}.
(** the mesh as CGAL repairs it: its points and faces oriented, sewn, its holes filled, turned
    outwards when closed *)
Definition repairs_to {N} (T : soup_tools) (C : nef_tools N) (m : mesh) (s : surface) : Prop :=
  exists P P' F' s0 s1, Forall2 at_point (m_points m) P /\ (forall p, In p (m_points m) -> all_finite p) /\ t_orient T P (m_faces m) = (P', F') /\ t_build T P' F' = Ok s0 /\ n_fill C (n_stitch C s0) = Ok s1 /\
    s = (if is_closed s1 && negb (t_outward T s1) then t_reverse T s1 else s1).
Lemma exact_points_inv ps P : omapM exact_point ps = Ok P -> Forall2 at_point ps P /\ forall p, In p ps -> all_finite p.
Proof.
  intros H. apply omapM_Ok in H. induction H as [|p q ps P E F IH]; [split; [constructor|intros p []]|]. destruct IH as [A B]. unfold exact_point in E. destruct (dfinite (px p)) eqn:X, (dfinite (py p)) eqn:Y, (dfinite (pz p)) eqn:Z; try discriminate.
  apply Ok_inj in E. subst q. split; [constructor; auto; repeat split|]. intros r [<-|R]; auto. repeat split; auto.
Qed.
Lemma repaired_spec {N} T (C : nef_tools N) m s : repaired T C m = Ok s -> repairs_to T C m s.
Proof.
  unfold repaired, get_cgal_points, get_cgal_faces. intros H. apply bind_Ok in H as (P & E & H). destruct (t_orient T P (m_faces m)) as [P' F'] eqn:O. apply bind_Ok in H as (s0 & E0 & H). apply bind_Ok in H as (s1 & E1 & H). apply Ok_inj in H.
  apply exact_points_inv in E as [A B]. exists P, P', F', s0, s1. rewrite O. auto 10.
Qed.
Lemma union_spec {N} (C : nef_tools N) solid pts (L : nef_laws C solid pts) : forall ss a u, ofold (fun acc s => let* x := n_from C s in Ok (n_union C acc x)) ss a = Ok u ->
  forall p, pts u p <-> pts a p \/ exists s, In s ss /\ solid s p.
Proof.
  induction ss as [|s ss IH]; intros a u H p; cbn [ofold] in H.
  - apply Ok_inj in H. subst u. split; auto. intros [H|(s & [] & _)]; auto.
  - apply bind_Ok in H as (b & E & H). apply bind_Ok in E as (x & E & E'). apply Ok_inj in E'. subst b. rewrite (IH _ _ H p), (law_union C solid pts L), (law_from C solid pts L s x E). split.
    + intros [[G|G]|(t & G & K)]; auto; right; [exists s|exists t]; split; auto; [now left|now right].
    + intros [G|(t & [<-|G] & K)]; auto. right. eauto.
Qed.
(** the node has the name, reference point and EPSG index it was given; where the union is a
    2-manifold its surface bounds the points of the meshes and no other, otherwise the node is
    silently empty *)
Theorem C90_union : forall N T (C : nef_tools N) solid pts, nef_laws C solid pts -> forall n ms ref epsg u, unode_of_meshes T C n ms ref epsg = Ok u ->
  u_name u = n /\ u_ref u = ref /\ u_epsg u = epsg /\
  exists ss x, Forall2 (repairs_to T C) ms ss /\ (forall p, pts x p <-> exists s, In s ss /\ solid s p) /\
    let b := u_surf u in
    (n_simple C x = true -> forall p, solid (b_surface b) p <-> exists s, In s ss /\ solid s p) /\
    (n_simple C x = false -> s_vertices (b_surface b) = [] /\ s_facets (b_surface b) = [] /\ s_halfedges (b_surface b) = []) /\
    b_box b = (match s_vertices (b_surface b) with [] => t_no_box T | _ => t_bbox T (b_surface b) end).
Proof.
  intros N T C solid pts L n ms ref epsg u H. unfold unode_of_meshes in H. apply bind_Ok in H as (ss & E1 & H). apply bind_Ok in H as (x & E2 & H). apply bind_Ok in H as (s & E3 & H). apply Ok_inj in H. subst u. cbn [u_name u_ref u_epsg u_surf b_surface b_box].
  do 3 (split; [reflexivity|]). exists ss, x. split; [|split; [|split; [|split]]].
  - apply omapM_Ok in E1. clear - E1. induction E1 as [|m s ms ss E F IH]; constructor; auto using repaired_spec.
  - intros p. rewrite (union_spec C solid pts L _ _ _ E2). split; auto. intros [G|G]; auto. now apply (law_empty C solid pts L) in G.
  - intros S p. rewrite S in E3. rewrite (law_convert C solid pts L x s S E3), (union_spec C solid pts L _ _ _ E2). split; auto. intros [G|G]; auto. now apply (law_empty C solid pts L) in G.
  - intros S. rewrite S in E3. apply Ok_inj in E3. subst s. repeat split.
  - reflexivity.
Qed.
(** a coordinate that is not finite is undefined behaviour, wherever it is *)
Theorem C90_not_finite : forall N T (C : nef_tools N) n ms ref epsg m p, In m ms -> In p (m_points m) -> ~ all_finite p -> (forall m s, In m ms -> repaired T C m <> Throw s) ->
  unode_of_meshes T C n ms ref epsg = UB.
Proof.
  intros N T C n ms ref epsg m p Hm Hp Nf NT. unfold unode_of_meshes. assert (omapM (repaired T C) ms = UB) as ->; [|reflexivity].
  assert (U : repaired T C m = UB).
  { unfold repaired, get_cgal_points. assert (omapM exact_point (m_points m) = UB) as ->; [|reflexivity]. clear - Hp Nf.
    induction (m_points m) as [|a P IH]; [destruct Hp|]. cbn [omapM]. destruct (exact_point_cases a) as [Fa|E]; [|now rewrite E]. destruct Hp as [->|Hp]; [contradiction|].
    destruct (exact_point a) as [b| |] eqn:E; cbn [bind]; [now rewrite (IH Hp)| |reflexivity]. unfold exact_point in E. destruct (_ && _); discriminate. }
  clear - U Hm NT. induction ms as [|a ms IH]; [destruct Hm|]. cbn [omapM]. destruct Hm as [->|Hm]; [now rewrite U|].
  destruct (repaired T C a) as [b|e|] eqn:E; cbn [bind]; auto; [|exfalso; apply (NT a e); [now left|auto]]. rewrite IH; auto. intros x s Hx. apply NT. now right.
Qed.
(** no mesh: an empty node, if the empty Nef polyhedron converts to the empty surface *)
Theorem C90_none : forall N T (C : nef_tools N) n ref epsg, n_convert C (n_empty C) = Ok no_surface ->
  unode_of_meshes T C n [] ref epsg = Ok (mkUNode n ref epsg (mkBody no_surface (t_no_box T))).
Proof. intros N T C n ref epsg E. unfold unode_of_meshes. cbn [omapM ofold bind]. rewrite E. destruct (n_simple C (n_empty C)); reflexivity. Qed.

(** ** Example: Nef polyhedra as collections of surfaces, of which none or one is a 2-manifold *)
Definition heap_tools : nef_tools (list surface) := mkNef (fun s => s) (fun s => Ok s) [] (fun s => Ok [s]) (@app surface) (fun l => length l <=? 1)
  (fun l => match l with [] => Ok no_surface | [s] => Ok s | _ => UB end).
Definition corner_of (s : surface) (p : p3) : Prop := In p (points s).
Definition heap_points (l : list surface) (p : p3) : Prop := exists s, In s l /\ corner_of s p.
Lemma heap_laws : nef_laws heap_tools corner_of heap_points.
Proof.
  constructor.
  - intros p (s & [] & _).
  - intros s x E p. apply Ok_inj in E. subst x. split; [intros (t & [<-|[]] & H); auto|intros H; exists s; split; auto; now left].
  - intros x y p. unfold heap_points. cbn [heap_tools n_union]. split.
    + intros (s & H & K). apply in_app_or in H as [H|H]; [left|right]; eauto.
    + intros [(s & H & K)|(s & H & K)]; exists s; split; auto; apply in_or_app; auto.
  - intros [|a [|b x]] s S E p; cbn in S; try discriminate; cbn [heap_tools n_convert] in E; apply Ok_inj in E; subst s.
    + split; [intros []|intros (s & [] & _)].
    + split; [intros H; exists a; split; auto; now left|intros (t & [<-|[]] & H); auto].
Qed.
Definition built (o : outcome (unode body)) : option (nat * list Z) := match o with Ok u => Some (length (s_facets (b_surface (u_surf u))), map (fun v => Z.of_nat v) (s_vertices (b_surface (u_surf u)))) | _ => None end.
Example C90_example : built (unode_of_meshes square_tools heap_tools [] [square_mesh] point_default 2154) = Some (2, [0; 1; 2; 3]%Z).
Proof. vm_compute. reflexivity. Qed.
(** two meshes whose union is not a 2-manifold vanish without an error *)
Theorem C90_vanishes_refuted : exists u, unode_of_meshes square_tools heap_tools [] [square_mesh; square_mesh] point_default 2154 = Ok u /\ s_vertices (b_surface (u_surf u)) = [].
Proof. eexists. split; [vm_compute; reflexivity|reflexivity]. Qed.
