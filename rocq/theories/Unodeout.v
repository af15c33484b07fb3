(** * Unodeout: model of the stream insertion of a node, operator<<(ostream, UNode),
    src/lib/scene/unode.cpp:499-503.

    The insertion of the surface is CGAL's OFF writer.  Its layout is taken from the files the
    project compares its output with, ressources/tests/staff_unstitched.off and staff.off
    (src/tests/test_urban_object.cpp:18-46): the keyword, the counts, an empty line, a line for
    each vertex in storage order, a line for each facet with two blanks after the number of
    corners, an empty line. *)
From Coq Require Strings.String.
Import Coq.Strings.String.StringSyntax.
Delimit Scope string_scope with string.
From Verif Require Import Base Dbl Geom Decimal Shadow Streams Handlers Surface Textout Export.
Open Scope nat_scope.

Section OUT.
  Context (tod : Qc -> dbl).
  (** a facet: the number of corners, then the numbers of its vertices from facet_begin() on *)
  Definition facet_text (f : face) : str := print_N (nsize f) ++ [ch_sp] ++ concat (map (fun i => ch_sp :: print_N i) f).
  (** os << unode.surface, unode.cpp:502 *)
  Definition surface_text (s : surface) : outcome str :=
    let* F := omapM (face_of_facet s) (s_facets s) in
    Ok (say "OFF"%string ++ [ch_nl] ++
        print_N (nsize (s_vertices s)) ++ [ch_sp] ++ print_N (nsize (s_facets s)) ++ say " 0"%string ++ [ch_nl] ++ [ch_nl] ++
        concat (map (fun v => print_point (point_of tod (s_point s v)) ++ [ch_nl]) (s_vertices s)) ++
        concat (map (fun f => facet_text f ++ [ch_nl]) F) ++ [ch_nl]).
  (** operator<<(ostream, UNode), unode.cpp:499-503 *)
  Definition unode_text (u : unode body) : outcome str :=
    let* t := surface_text (b_surface (u_surf u)) in
    Ok (say "# Name: "%string ++ u_name u ++ [ch_nl] ++ t).
End OUT.
