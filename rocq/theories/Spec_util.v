(** * Specification vocabulary for C70 - C72. *)
From Verif Require Import Base Dbl Geom Surface Projection Raster.
Open Scope nat_scope.

(** the square of the distance of two points *)
Definition distance2 (p q : p2) : Qc := ((x2 p - x2 q) * (x2 p - x2 q) + (y2 p - y2 q) * (y2 p - y2 q))%Qc.
(** all on one line: a point and a direction *)
Definition on_a_line (l : list p2) : Prop := exists o d, forall p, In p l -> exists t, x2 p = (x2 o + t * x2 d)%Qc /\ y2 p = (y2 o + t * y2 d)%Qc.
(** three points are on a line *)
Definition aligned (p q r : p2) : Prop := ((x2 q - x2 p) * (y2 r - y2 p) = (y2 q - y2 p) * (x2 r - x2 p))%Qc.
(** a number is the value of a double *)
Definition is_double (q : Qc) : Prop := exists x, dvalid x = true /\ dfinite x = true /\ qd x = q.
(** [c] is the centre of mass of the polygon (ring) [l], of non-zero area *)
Definition mass_x (a b : p2) : Qc := ((x2 a + x2 b) * (x2 a * y2 b - y2 a * x2 b))%Qc.
Definition mass_y (a b : p2) : Qc := ((y2 a + y2 b) * (x2 a * y2 b - y2 a * x2 b))%Qc.
Definition around (F : p2 -> p2 -> Qc) (l : list p2) : Qc := match l with [] => 0%Qc | a :: l' => qsum (map (fun e => F (fst e) (snd e)) (combine (a :: l') (l' ++ [a]))) end.
Definition area2 (l : list p2) : Qc := around (fun a b => x2 a * y2 b - y2 a * x2 b)%Qc l.
Definition mass_centre (l : list p2) (c : p2) : Prop := area2 l <> 0%Qc /\ (qz 3 * area2 l * x2 c = around mass_x l)%Qc /\ (qz 3 * area2 l * y2 c = around mass_y l)%Qc.
