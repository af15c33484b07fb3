(** * Specification vocabulary for the text formats (C18-C31).

    Only record types, readlines and the scanning / printing primitives of the C++ library
    (Decimal) are used. *)
From Verif Require Import Base Dbl Decimal Shadow Spec_shadow Streams.
From Coq Require Import QArith Qabs.

(** ** Doubles as rationals *)
Definition dval (x : dbl) : Q :=
  match x with
  | S754_finite s m e => (if s then -1 else 1) * inject_Z (Zpos m) * (2#1) ^ e
  | _ => 0
  end.
(** a real double: finite, canonical *)
Definition real_double (x : dbl) : Prop := dvalid x = true /\ dfinite x = true.
(** y is what [is >> y] reads from what [os << x] wrote *)
Definition reads_back (x y : dbl) : Prop := scan_double (print_dbl x) = Some (y, []).
Definition pt_real (p : point) : Prop := real_double (px p) /\ real_double (py p) /\ real_double (pz p).
Definition pt_reads_back (p q : point) : Prop :=
  reads_back (px p) (px q) /\ reads_back (py p) (py q) /\ reads_back (pz p) (pz q).
(** zero, or at least 10^-317 in absolute value *)
Definition not_tiny (x : dbl) : Prop := dval x == 0 \/ (10#1) ^ (-317) <= Qabs (dval x).
Definition pt_not_tiny (p : point) : Prop := not_tiny (px p) /\ not_tiny (py p) /\ not_tiny (pz p).

Close Scope Q_scope.

(** ** Lines *)
Definition newline : ascii := "010"%char.
Definition is_digit (c : ascii) : bool := ((48 <=? N_of_ascii c) && (N_of_ascii c <=? 57))%N.
Definition hash : ascii := "#"%char.
Definition starts_with (c : ascii) (l : str) : bool := match l with a :: _ => Ascii.eqb a c | [] => false end.
(** lines that are not comments *)
Definition significant (ls : list str) : list str := filter (fun l => negb (starts_with hash l)) ls.
(** k-th integer of the list, absent ones counting as 0 *)
Definition item (l : list N) (k : nat) : N := nth k l 0%N.

(** ** Face lines of an OFF file: announced degree and indices after it *)
Definition face_items (l : str) : N * list N :=
  let '(n, r) := scan_size_n l in (n, match r with Some r => scan_sizes r | None => [] end).
Definition overfull (l : str) : Prop := (fst (face_items l) < nsize (snd (face_items l)))%N /\ (fst (face_items l) <= 1152921504606846975)%N.
Definition good_face_line (l : str) : Prop :=
  (3 <= fst (face_items l) <= 1152921504606846975)%N /\ (nsize (snd (face_items l)) <= fst (face_items l))%N.

Definition faces_ok (m : mesh) : Prop :=
  forall f, In f (m_faces m) -> (3 <= length f)%nat /\ (nsize f <= 1152921504606846975)%N /\ forall i, In i f -> (i < two64)%N.
Definition no_space (s : str) : Prop := forall c, In c s -> is_space c = false.
(** lexicographic order of strings by character code *)
Inductive str_lt : str -> str -> Prop :=
| str_lt_nil c b : str_lt [] (c :: b)
| str_lt_head c d a b : (N_of_ascii c < N_of_ascii d)%N -> str_lt (c :: a) (d :: b)
| str_lt_tail c a b : str_lt a b -> str_lt (c :: a) (c :: b).
(** strictly increasing names *)
Inductive increasing : list str -> Prop :=
| incr_nil : increasing []
| incr_one s : increasing [s]
| incr_cons s t l : str_lt s t -> increasing (t :: l) -> increasing (s :: t :: l).
(** relation lifted to the vertices of polygons *)
Definition poly_reads_back : list (list (option point)) -> list (list (option point)) -> Prop :=
  Forall2 (Forall2 (fun a b => exists p q, a = Some p /\ b = Some q /\ pt_reads_back p q)).

(** ** OBJ files *)
Definition ch_letter_v : ascii := "v"%char.
Definition ch_letter_o : ascii := "o"%char.
(** lines neither empty nor comments *)
Definition obj_lines (t : str) : list str :=
  filter (fun l => match l with [] => false | c :: _ => negb (Ascii.eqb c hash) end) (readlines t).
(** the leading vertex lines and what follows them *)
Definition obj_file (t : str) (vs rest : list str) : Prop :=
  obj_lines t = vs ++ rest /\ (forall l, In l vs -> starts_with ch_letter_v l = true) /\
  (rest = [] \/ exists l r, rest = l :: r /\ starts_with ch_letter_v l = false).
(** [n] is the first blank-delimited word after the first character of [l] *)
Definition line_word (l n : str) : Prop :=
  exists c ws rest, l = c :: ws ++ n ++ rest /\ (forall x, In x ws -> is_space x = true) /\ no_space n /\
    (rest = [] \/ n <> [] /\ exists s r, rest = s :: r /\ is_space s = true).
(** [body] are the lines after the first 'o' line naming [n], up to the next 'o' line *)
Definition first_section (ls : list str) (n : str) (body : list str) : Prop :=
  exists pre l post, ls = pre ++ l :: body ++ post /\ starts_with ch_letter_o l = true /\ line_word l n /\
    (forall l', In l' pre -> starts_with ch_letter_o l' = true -> ~ line_word l' n) /\
    (forall l', In l' body -> starts_with ch_letter_o l' = false) /\
    (post = [] \/ exists l' r, post = l' :: r /\ starts_with ch_letter_o l' = true).
(** the coordinates a vertex line holds *)
Definition vertex_line (l : str) (p : point) : Prop := scan_doubles (tl l) = [px p; py p; pz p].
(** the indices a face line holds: numbers converted to size_t *)
Definition index_line (l : str) (idx : list N) : Prop :=
  Forall2 (fun d i => size_of_dbl d = Ok i) (scan_doubles (tl l)) idx.
(** the distinct elements of a list in order of first occurrence *)
Definition first_uses (l : list N) : list N := rev (nodup N.eq_dec (rev l)).
(** the objects of a file: first sections, by increasing name *)
Definition objects_of (rest : list str) (objs : list (str * list str)) : Prop :=
  increasing (map fst objs) /\ forall n b, In (n, b) objs <-> first_section rest n b.
Definition good_index_line (l : str) (idx : list N) : Prop := index_line l idx /\ (3 <= length idx)%nat.
(** every line of the object holds at least three indices, all at most k *)
Definition object_fine (k : nat) (body : list str) : Prop :=
  exists idxs, Forall2 good_index_line body idxs /\ forall i, In i (concat idxs) -> (i <= N.of_nat k)%N.
(** the first defective line holds a number outside size_t, or there is no defective
    line and some index exceeds k *)
Definition object_undefined (k : nat) (body : list str) : Prop :=
  (exists pre l post, body = pre ++ l :: post /\ (forall l', In l' pre -> exists idx, good_index_line l' idx) /\
     ~ exists idx, index_line l idx) \/
  (exists idxs, Forall2 good_index_line body idxs /\ exists i, In i (concat idxs) /\ (N.of_nat k < i)%N).
Definition numbers (l : str) : nat := length (scan_doubles (tl l)).

(** ** Meshes that can be saved *)
(** the keyword and the comment before the name in an OFF file *)
Definition off_keyword : str := ["O"; "F"; "F"]%char.
Definition mesh_comment : str := ["#"; " "; "M"; "e"; "s"; "h"; ":"; " "]%char.
(** OFF: finite coordinates, faces of degree at least three, indices and sizes below 2^64,
    no newline in the name *)
Definition off_savable (m : mesh) : Prop :=
  (forall p, In p (m_points m) -> pt_real p) /\ faces_ok m /\ ~ In newline (m_name m) /\
  (nsize (m_points m) < two64)%N /\ (nsize (m_faces m) < two64)%N.
(** OBJ: finite coordinates, no newline in the names *)
Definition writable (ms : list mesh) : Prop :=
  forall m, In m ms -> (forall p, In p (m_points m) -> pt_real p) /\ ~ In newline (m_name m).
(** OBJ, to be read back: at least one mesh, existing indices, distinct names without blanks,
    fewer than 2^53 points in total *)
Definition obj_savable (ms : list mesh) : Prop :=
  ms <> [] /\ (forall m, In m ms -> mesh_wf m /\ no_space (m_name m) /\ forall p, In p (m_points m) -> pt_real p) /\
  NoDup (map m_name ms) /\ (sum_points ms < 2 ^ 53)%N.
(** ** OFF files *)
(** the two header lines and the lines after them *)
Definition off_file (t : str) (counts : str) (rest : list str) : Prop :=
  ~ In [] (readlines t) /\ significant (readlines t) = off_keyword :: counts :: rest.
(** the counts line holds at most three integers, p, f and 0 *)
Definition announces (counts : str) (p f : N) : Prop :=
  (length (scan_sizes counts) <= 3)%nat /\ item (scan_sizes counts) 0 = p /\ item (scan_sizes counts) 1 = f /\ item (scan_sizes counts) 2 = 0%N.
Definition good_point_line (l : str) : Prop := (3 <= length (scan_doubles l))%nat.
(** the point line starts with the three coordinates of the point *)
Definition point_line (l : str) (p : point) : Prop := exists r, scan_doubles l = px p :: py p :: pz p :: r.
(** the face line is good and holds the face's first indices; the missing ones are 0 *)
Definition face_line (l : str) (f : list N) : Prop :=
  good_face_line l /\ f = snd (face_items l) ++ repeat 0%N (N.to_nat (fst (face_items l)) - length (snd (face_items l))).
(** the first defective face line announces fewer than three indices (and holds no more than it announces) *)
Definition few (l : str) : Prop := (fst (face_items l) < 3)%N /\ (nsize (snd (face_items l)) <= fst (face_items l))%N.
(** ... or more than a vector can hold *)
Definition huge (l : str) : Prop := (1152921504606846975 < fst (face_items l))%N.
