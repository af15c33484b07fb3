(** * Specification vocabulary for file handlers and scenes (C31-C39).

    Only record types, list functions and the text primitives are used. *)
From Coq Require Import String.
From Verif Require Import Base Dbl Decimal Shadow Spec_shadow Streams Spec_text Handlers.
Close Scope string_scope.

(** a literal as a character list *)
Definition lit (s : string) : str := list_ascii_of_string s.

(** [l] is obtained by interleaving [a] and [b], keeping both orders *)
Inductive interleave {A} : list A -> list A -> list A -> Prop :=
| il_nil : interleave [] [] []
| il_left x a b l : interleave a b l -> interleave (x :: a) b (x :: l)
| il_right x a b l : interleave a b l -> interleave a (x :: b) (x :: l).

(** ** Modes: a map from keys to flags *)
Definition is_map (m : modes) : Prop := NoDup (map fst m).
Definition granted (m : modes) (k : string) : Prop := In (lit k, true) m.

(** ** File system *)
Definition nul : ascii := "000"%char.
Definition no_nul (p : path) : Prop := forall c, In c p -> ~ In nul c.
Definition a_file (f : fs) (p : path) : Prop := exists c, f p = Some (File c).
(** children exist only in directories; the starting point is a directory *)
Definition fs_tree (f : fs) : Prop := f [] = Some Dir /\ forall p, p <> [] -> f p <> None -> f (removelast p) = Some Dir.
(** [ls] is a listing of the directory [d], in some order *)
Definition lists (f : fs) (d : path) (ls : list str) : Prop :=
  NoDup ls /\ forall n, In n ls <-> f (d ++ [n]) <> None.
(** two file systems agree except at [p] *)
Definition differ_only_at (p : path) (f g : fs) : Prop := forall q, q <> p -> f q = g q.

(** equality of characters up to ASCII case *)
Definition upper (c : ascii) : Prop := (65 <= N_of_ascii c <= 90)%N.
Definition same_letter (c d : ascii) : Prop :=
  c = d \/ (upper c /\ N_of_ascii d = (N_of_ascii c + 32)%N) \/ (upper d /\ N_of_ascii c = (N_of_ascii d + 32)%N).
Definition same_ignoring_case : str -> str -> Prop := Forall2 same_letter.
(** the file name ends with [e] up to case *)
Definition ends_with_ci (n e : str) : Prop := exists a b, n = a ++ b /\ same_ignoring_case b e.

(** ** Scenes on disk *)
(** a name usable as a file name: no slash, NUL or newline *)
Definition file_safe (n : str) : Prop := ~ In "/"%char n /\ ~ In nul n /\ ~ In newline n.
(** x is what an OFF file written from y gives back *)
Definition rereads (y x : mesh) : Prop :=
  m_faces x = m_faces y /\ Forall2 pt_reads_back (m_points y) (m_points x).
(** what the OFF writer can store: real coordinates, faces of degree >= 3 *)
Definition storable (m : mesh) : Prop :=
  (forall p, In p (m_points m) -> pt_real p) /\ faces_ok m /\
  (nsize (m_points m) < two64)%N /\ (nsize (m_faces m) < two64)%N.

(** ** 3DS node trees *)
(** strict descendants in pre-order *)
Fixpoint descendants (n : node) : list node :=
  let 'Node _ _ l := n in flat_map (fun c => c :: descendants c) l.
(** the subtree in post-order *)
Fixpoint postorder (n : node) : list node :=
  let 'Node s o l := n in flat_map postorder l ++ [Node s o l].
Definition node_label (n : node) : str := let 'Node s _ _ := n in s.
Definition node_kids (n : node) : list node := let 'Node _ _ l := n in l.
Definition is_object (n : node) : bool := let 'Node _ o _ := n in o.
(** [n] is the first strict descendant of [root] that is an object named [s] *)
Definition found_at (root : node) (s : str) (n : node) : Prop :=
  exists pre post, descendants root = pre ++ n :: post /\ is_object n = true /\ node_label n = s /\
    forall n', In n' pre -> is_object n' = true -> node_label n' <> s.
Definition not_found (root : node) (s : str) : Prop :=
  forall n', In n' (descendants root) -> is_object n' = true -> node_label n' <> s.
(** nodes at depth k below the forest *)
Fixpoint at_depth (k : nat) (l : list node) : list node :=
  match k with O => l | S k => at_depth k (flat_map node_kids l) end.
(** the mesh a node refers to: the first mesh of the table carrying its name *)
Inductive mesh_of_node (tab : list lib3ds_mesh) (n : node) : option lib3ds_mesh -> Prop :=
| mon_some pre lm post : tab = pre ++ lm :: post -> lm_name lm = node_label n ->
    (forall x, In x pre -> lm_name x <> node_label n) -> mesh_of_node tab n (Some lm)
| mon_none : (forall x, In x tab -> lm_name x <> node_label n) -> mesh_of_node tab n None.
(** the type letter of a mesh: first character of its name (NUL if empty) *)
Definition letter (lm : lib3ds_mesh) : ascii := match lm_name lm with [] => nul | c :: _ => c end.
Definition options {A} (l : list (option A)) : list A := flat_map (fun o => match o with Some a => [a] | None => [] end) l.
(** [ms] are the meshes of the subtree of [n], in post-order *)
Definition subtree_meshes (tab : list lib3ds_mesh) (n : node) (ms : list lib3ds_mesh) : Prop :=
  exists os, Forall2 (mesh_of_node tab) (postorder n) os /\ ms = options os.
(** signed character code *)
Definition signed_code (c : ascii) : Z :=
  if (N_of_ascii c <? 128)%N then Z.of_N (N_of_ascii c) else (Z.of_N (N_of_ascii c) - 256)%Z.
Inductive sorted_by {A} (key : A -> Z) : list A -> Prop :=
| sb_nil : sorted_by key []
| sb_one a : sorted_by key [a]
| sb_cons a b l : (key a < key b)%Z -> sorted_by key (b :: l) -> sorted_by key (a :: b :: l).
(** all face indices of a 3DS mesh refer to its points *)
Definition indices_fine (lm : lib3ds_mesh) : Prop :=
  forall t, In t (lm_faces lm) -> (lf_a t < nsize (lm_points lm) /\ lf_b t < nsize (lm_points lm) /\ lf_c t < nsize (lm_points lm))%N.

(** ** XML *)
Definition elem_name (e : xelem) : str := let 'XElem n _ _ _ := e in n.
Definition elem_kids (e : xelem) : list xelem := let 'XElem _ _ _ k := e in k.
Definition elem_text (e : xelem) : option str := let 'XElem _ _ t _ := e in t.
Definition elem_attrs (e : xelem) : list (str * str) := let 'XElem _ a _ _ := e in a.
(** [e] is the first element named [n] among [l] *)
Definition first_named (l : list xelem) (n : string) (e : xelem) : Prop :=
  exists pre post, l = pre ++ e :: post /\ elem_name e = lit n /\ forall x, In x pre -> elem_name x <> lit n.
Definition none_named (l : list xelem) (n : string) : Prop := forall x, In x l -> elem_name x <> lit n.
(** following first children along a path of names *)
Inductive reach : list xelem -> list string -> xelem -> Prop :=
| reach_one l n e : first_named l n e -> reach l [n] e
| reach_more l n e ns e' : first_named l n e -> reach (elem_kids e) ns e' -> reach l (n :: ns) e'.
Definition reads_double (X : externals) (e : xelem) (d : dbl) : Prop :=
  exists t, elem_text e = Some t /\ text_double X t = Some d.
(** value of the attribute: first with that key *)
Definition has_attr (e : xelem) (k : string) (v : str) : Prop :=
  exists pre post, elem_attrs e = pre ++ (lit k, v) :: post /\ forall x, In x pre -> fst x <> lit k.
(** the number declared at Chantier_Bati3D / Bbox / [k] *)
Definition declared_bound (X : externals) (d : list xelem) (k : string) (v : dbl) : Prop :=
  exists e, reach d ["Chantier_Bati3D"; "Bbox"; k]%string e /\ reads_double X e v.
Definition bound_names : list string := ["Xmin"; "Xmax"; "Ymin"; "Ymax"; "Zmin"; "Zmax"]%string.
(** [bs] are the children of [c] named Building, in document order *)
Definition buildings_of (c : xelem) (bs : list xelem) : Prop :=
  exists others, interleave bs others (elem_kids c) /\
    (forall e, In e bs -> elem_name e = lit "Building") /\ (forall e, In e others -> elem_name e <> lit "Building").
(** extension each format asks for *)
Definition wanted_extension (f : scene_fmt) : str :=
  match f with t3ds_xml | t3ds => lit ".3ds" | off => lit ".off" | obj => lit ".obj" end.
