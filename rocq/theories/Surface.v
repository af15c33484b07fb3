(** * Surface: model of scene::UNode's surface, of src/lib/scene/unode.cpp,
    src/lib/algorithms/unode_algorithms.cpp, src/lib/algorithms/util_algorithms.cpp
    (transformations), src/lib/scene/scene.cpp (prune) and of the adjacency stream.

    The member [surface] is a CGAL::Polyhedron_3: a halfedge structure.  Halfedges, facets
    and vertices are identified by numbers (their addresses), listed in storage order.
    Geometry is exact, as in the kernel used; the square root followed by conversion to
    double is an argument [root] of the functions that measure lengths. *)
From Verif Require Import Base Dbl Geom Decimal Shadow Streams Handlers.
Open Scope nat_scope.

Record surface := mkSurf {
  s_halfedges : list nat;
  s_opp : nat -> nat;            (* opposite() *)
  s_next : nat -> nat;           (* next() *)
  s_vert : nat -> nat;           (* vertex(): the target *)
  s_facet : nat -> option nat;   (* facet(); None on the border *)
  s_facets : list nat;
  s_rep : nat -> nat;            (* halfedge() of a facet = facet_begin() *)
  s_id : nat -> nat;             (* id() of a facet *)
  s_vertices : list nat;
  s_point : nat -> p3            (* point() of a vertex *)
}.
(** is_border(), is_border_edge() *)
Definition is_border (s : surface) (h : nat) : bool := match s_facet s h with None => true | Some _ => false end.
Definition is_border_edge (s : surface) (h : nat) : bool := is_border s h || is_border s (s_opp s h).
(** a circulator loop do {...} while(++c != begin): the halfedges met by repeating [step]
    from [h] until it comes back to [start].  A loop that visits more halfedges than there
    are never ends; it is given the value UB. *)
Fixpoint circulate (step : nat -> nat) (fuel start h : nat) : option (list nat) :=
  match fuel with
  | O => None
  | S k => if step h =? start then Some [h] else option_map (cons h) (circulate step k start (step h))
  end.
Definition loop_from (s : surface) (step : nat -> nat) (h : nat) : outcome (list nat) :=
  match circulate step (length (s_halfedges s)) h h with Some l => Ok l | None => UB end.
Definition around_facet (s : surface) (f : nat) : outcome (list nat) := loop_from s (s_next s) (s_rep s f).

(** ** Facet adjacency, unode.cpp:441-497 *)
(** facet_adjacents, unode.cpp:441-454 *)
Definition facet_adjacents (s : surface) (f : nat) : outcome (list nat) :=
  let* l := around_facet s f in
  Ok (flat_map (fun h => match s_facet s (s_opp s h) with
                         | Some g => if is_border s h then [] else [g]
                         | None => [] end) l).
(** matrix.at(i) = true on a std::vector<bool> *)
Fixpoint set_true (m : list bool) (i : nat) : outcome (list bool) :=
  match m, i with
  | [], _ => Throw OutOfRange
  | _ :: m, O => Ok (true :: m)
  | b :: m, S i => let* m := set_true m i in Ok (b :: m)
  end.
(** std::find on the handles, as a distance *)
Fixpoint position (f : nat) (l : list nat) : option nat :=
  match l with [] => None | a :: l => if a =? f then Some O else option_map S (position f l) end.
(** facet_handles: the facets in order, unode.cpp:455-468; facet_adjacency_matrix, 469-497 *)
Definition adjacency_line (s : surface) (m : list bool) (line : nat) : outcome (list bool) :=
  let n := length (s_facets s) in
  let* f := vat (s_facets s) line in
  let* adj := facet_adjacents s f in
  ofold (fun m g => match position g (s_facets s) with Some d => set_true m (line * n + d) | None => Ok m end) adj m.
Definition facet_adjacency_matrix (s : surface) : outcome (list bool) :=
  let n := length (s_facets s) in
  let* m := ofold (fun m d => set_true m (d * n + d)) (seq 0 n) (repeat false (n * n)) in
  ofold (adjacency_line s) (seq 0 n) m.

(** ** Adjacency_stream << vector<bool>, adjacency_stream.h:58-71.  The side is
    the integer square root of the size here and a rounded root of doubles in the code; Side.v
    and C41_side: the text and the refusals are the same for every size below 2^63. *)
Definition bit (b : bool) : ascii := if b then "1"%char else "0"%char.
Definition print_row (m : list bool) (n row : nat) : outcome str :=
  let* cs := omapM (fun col => let* b := vat m (row * n + col) in Ok [bit b; " "%char]) (seq 0 (n - 1)) in
  let* b := vat m (row * n + (n - 1)) in
  Ok (concat cs ++ [bit b; ch_nl]).
Definition adjacency_print (m : list bool) : outcome str :=
  let n := Nat.sqrt (length m) in
  if n * n =? length m then let* rows := omapM (print_row m n) (seq 0 n) in Ok (concat rows)
  else Throw LogicError.

(** ** Pruning *)
(** CGAL compute_face_normal up to a positive factor: sum of the triangle normals of the
    fan from the first vertex (unode.cpp:302-303 only compares directions).  A facet of
    zero area has the zero normal. *)
Definition facet_points (s : surface) (f : nat) : outcome (list p3) :=
  let* l := around_facet s f in Ok (map (fun h => s_point s (s_vert s h)) l).
Fixpoint fan (o : p3) (l : list p3) : p3 :=
  match l with
  | a :: (b :: _) as l' => vadd (cross (vsub a o) (vsub b o)) (fan o l')
  | _ => v0
  end.
Definition vector_area (l : list p3) : p3 := match l with [] => v0 | o :: l => fan o l end.
Definition facet_normal (s : surface) (f : nat) : outcome p3 := let* l := facet_points s f in Ok (vector_area l).
(** the predicate of UNode::prunable, unode.cpp:295-310 *)
Definition joinable (s : surface) (h : nat) : outcome bool :=
  match s_facet s h, s_facet s (s_opp s h) with
  | Some f, Some g => let* n := facet_normal s f in let* m := facet_normal s g in Ok (p3_eqb (cross n m) v0)
  | _, _ => Ok false
  end.
(** std::find_if *)
Fixpoint find_if {A} (p : A -> outcome bool) (l : list A) : outcome (option A) :=
  match l with [] => Ok None | a :: l => let* b := p a in if b then Ok (Some a) else find_if p l end.
(** UNode::prunable, unode.cpp:290-312 *)
Definition prunable (s : surface) : outcome (option nat) := find_if (joinable s) (s_halfedges s).

(** Polyhedron_3::join_facet (CGAL), called at unode.cpp:366-370.  Its precondition, that
    both end points have degree at least 3, and joining a facet with itself are UB here.
    [upd] is an assignment to a member. *)
Definition upd {A} (f : nat -> A) (k : nat) (a : A) : nat -> A := fun x => if x =? k then a else f x.
Definition find_prev (s : surface) (h : nat) : outcome nat :=
  match find (fun k => s_next s k =? h) (s_halfedges s) with Some k => Ok k | None => UB end.
Definition degree (s : surface) (h : nat) : outcome nat :=
  let* l := loop_from s (fun h => s_opp s (s_next s h)) h in Ok (length l).
(** the relabelling walk from hprev to gprev *)
Fixpoint walk (next : nat -> nat) (fuel h last : nat) : option (list nat) :=
  if h =? last then Some []
  else match fuel with O => None | S k => option_map (cons (next h)) (walk next k (next h) last) end.
Definition same_facet (a b : option nat) : bool :=
  match a, b with Some f, Some g => f =? g | None, None => true | _, _ => false end.
Definition join_facet (s : surface) (h : nat) : outcome surface :=
  let g := s_opp s h in
  let* dh := degree s h in let* dg := degree s g in
  if (dh <? 3) || (dg <? 3) || same_facet (s_facet s h) (s_facet s g) then UB
  else
    let* hp := find_prev s h in let* gp := find_prev s g in
    let next := upd (upd (s_next s) hp (s_next s g)) gp (s_next s h) in
    let hs := filter (fun k => negb ((k =? h) || (k =? g))) (s_halfedges s) in
    let fs := match s_facet s g with Some e => filter (fun f => negb (f =? e)) (s_facets s) | None => s_facets s end in
    match walk next (length (s_halfedges s)) hp gp with
    | None => UB
    | Some w =>
      let facet := fun k => if existsb (Nat.eqb k) w then s_facet s h else s_facet s k in
      let rep := match s_facet s h with Some f => upd (s_rep s) f hp | None => s_rep s end in
      Ok (mkSurf hs (s_opp s) next (s_vert s) facet fs rep (s_id s) (s_vertices s) (s_point s))
    end.
(** the loop of prune, unode_algorithms.cpp:71-77: [prune_run s n r] when [n] facets are
    joined before it stops with [r].  (Line 75 assigns the node to itself.) *)
Inductive prune_run : surface -> nat -> outcome surface -> Prop :=
| prune_done s : prunable s = Ok None -> prune_run s 0 (Ok s)
| prune_fails s : prunable s = UB -> prune_run s 0 UB
| prune_join_fails s h : prunable s = Ok (Some h) -> join_facet s h = UB -> prune_run s 0 UB
| prune_join s h s' n r : prunable s = Ok (Some h) -> join_facet s h = Ok s' -> prune_run s' n r -> prune_run s (S n) r.
(** UNode::set_face_ids, unode.cpp:430-439 *)
Fixpoint number_from (l : list nat) (k : nat) (id : nat -> nat) : nat -> nat :=
  match l with [] => id | f :: l => number_from l (S k) (upd id f k) end.
Definition set_face_ids (s : surface) : surface :=
  mkSurf (s_halfedges s) (s_opp s) (s_next s) (s_vert s) (s_facet s) (s_facets s) (s_rep s)
    (number_from (s_facets s) 0 (s_id s)) (s_vertices s) (s_point s).
(** prune, unode_algorithms.cpp:69-82; [stitch] is UNode::stitch_borders,
    unode.cpp:371-378 (CGAL) *)
Inductive prune_surface (stitch : surface -> surface) (s : surface) : outcome surface -> Prop :=
| prune_ok n s' : prune_run s n (Ok s') -> prune_surface stitch s (Ok (set_face_ids (stitch s')))
| prune_ub n : prune_run s n UB -> prune_surface stitch s UB.

(** ** Measures *)
(** total_edge_length, unode_algorithms.cpp:97-117 *)
Definition edge_len (root : Qc -> Qc) (s : surface) (h : nat) : Qc :=
  root (sqdist (s_point s (s_vert s h)) (s_point s (s_vert s (s_opp s h)))).
Definition total_edge_length (root : Qc -> Qc) (s : surface) : Qc :=
  fold_left (fun t h => (t + edge_len root s h)%Qc) (s_halfedges s) 0%Qc.
(** UNode::centroid, unode.cpp:380-398, from the points of the facet in order, its unit
    normal [n] and its area [a]; conversions to double taken as exact *)
Definition pairs {A} (l : list A) : list (A * A) :=
  match l with [] => [] | a :: _ => combine l (tl l ++ [a]) end.
Definition centroid (n : p3) (a : Qc) (l : list p3) : p3 :=
  vscale (/ a) (fold_left (fun c pq => vadd c (vscale (det (fst pq) (snd pq) n / qz 6) (vadd (fst pq) (snd pq)))) (pairs l) v0).

(** ** Transformations *)
(** Affine_transformation_3: rows of the linear part, translation *)
Record affine := mkAff { a_r1 : p3; a_r2 : p3; a_r3 : p3; a_t : p3 }.
Definition aff_apply (t : affine) (p : p3) : p3 :=
  vadd (P3 (dot (a_r1 t) p) (dot (a_r2 t) p) (dot (a_r3 t) p)) (a_t t).
Definition aff_id : affine := mkAff (P3 1 0 0) (P3 0 1 0) (P3 0 0 1) v0.
Definition aff_translation (v : p3) : affine := mkAff (P3 1 0 0) (P3 0 1 0) (P3 0 0 1) v.
Definition aff_scaling (k : Qc) : affine := mkAff (P3 k 0 0) (P3 0 k 0) (P3 0 0 k) v0.
(** operator*: u * t applies t first *)
Definition aff_mul (u t : affine) : affine :=
  let col (r : p3) := P3 (x3 r * x3 (a_r1 t) + y3 r * x3 (a_r2 t) + z3 r * x3 (a_r3 t))
                         (x3 r * y3 (a_r1 t) + y3 r * y3 (a_r2 t) + z3 r * y3 (a_r3 t))
                         (x3 r * z3 (a_r1 t) + y3 r * z3 (a_r2 t) + z3 r * z3 (a_r3 t)) in
  mkAff (col (a_r1 u)) (col (a_r2 u)) (col (a_r3 u)) (aff_apply u (a_t t)).
(** Bbox_3 as three intervals *)
Record box3 := mkBox3 { lo3 : p3; hi3 : p3 }.
(** the members surface and bounding_box of UNode *)
Record body := mkBody { b_surface : surface; b_box : box3 }.
Definition map_points (g : p3 -> p3) (s : surface) : surface :=
  mkSurf (s_halfedges s) (s_opp s) (s_next s) (s_vert s) (s_facet s) (s_facets s) (s_rep s) (s_id s)
    (s_vertices s) (fun v => g (s_point s v)).
(** affine_transform, unode_algorithms.cpp:30-42 *)
Definition affine_transform (t : affine) (u : unode body) : unode body :=
  mkUNode (u_name u) (u_ref u) (u_epsg u) (mkBody (map_points (aff_apply t) (b_surface (u_surf u))) (b_box (u_surf u))).
(** translate and scale, unode_algorithms.cpp:44-54 *)
Definition translate (v : p3) (u : unode body) : unode body := affine_transform (aff_translation v) u.
Definition scale (k : Qc) (u : unode body) : unode body := affine_transform (aff_scaling k) u.
(** rotation_transform, util_algorithms.cpp:9-45: std::transform writes through the begin
    iterator of the empty vector [rotations]; [matrix] is the rotation of one pair *)
Definition write_through {A} (dst src : list A) : outcome (list A) :=
  if length src <=? length dst then Ok (src ++ skipn (length src) dst) else UB.
Definition rotation_transform (matrix : Qc * p3 -> affine) (rotations : list (Qc * p3)) : outcome affine :=
  let* l := write_through [] (map matrix rotations) in
  Ok (fold_left aff_mul l aff_id).
(** rotate, unode_algorithms.cpp:56-67 *)
Definition rotate_map matrix (rotations : list (Qc * p3)) (u : unode body) : outcome (unode body) :=
  let* r := rotation_transform matrix rotations in Ok (affine_transform r u).
Definition rotate_axis matrix (axis : p3) (angle : Qc) (u : unode body) : outcome (unode body) :=
  rotate_map matrix [(angle, axis)] u.

(** ** Scene::prune, scene.cpp:132-147; [prune] is prune on one node *)
Definition scene_prune {S} (prune : unode S -> outcome (unode S)) (s : scene S) (terrain : bool) : outcome (scene S) :=
  let* bs := omapM prune (sc_buildings s) in
  let* t := if terrain then prune (sc_terrain s) else Ok (sc_terrain s) in
  Ok (mkScene (sc_pivot s) (sc_epsg s) bs t).
(** prune on a node keeps every member but the surface, unode_algorithms.cpp:69-82;
    [p] is the effect on the members surface and bounding box *)
Definition unode_prune {S} (p : S -> outcome S) (u : unode S) : outcome (unode S) :=
  let* b := p (u_surf u) in Ok (mkUNode (u_name u) (u_ref u) (u_epsg u) b).
