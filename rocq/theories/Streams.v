(** * Streams: model of the text readers and writers.

    src/include/io/Line/line.h, src/include/io/Off_stream/off_stream.h,
    src/include/io/Obj_stream/obj_stream.h, src/include/algorithms/io_algorithms.h,
    src/lib/algorithms/io_algorithms.cpp.  A stream is the character list it holds;
    streams are assumed good (no I/O error). *)
From Verif Require Import Base Dbl Decimal Shadow.

(** ** line.h *)
(** readlines, line.h:108-112 with operator>> (89-93): repeated std::getline.  A last
    line without newline counts if it is not empty. *)
Fixpoint readlines_acc (cur : str) (s : str) : list str :=
  match s with
  | [] => match cur with [] => [] | _ => [rev cur] end
  | c :: s' => if Ascii.eqb c ch_nl then rev cur :: readlines_acc [] s' else readlines_acc (c :: cur) s'
  end.
Definition readlines (s : str) : list str := readlines_acc [] s.
(** operator<<(ostream, Line), line.h:101-105 *)
Definition print_line (l : str) : str := l ++ [ch_nl].

(** ** Output of points and faces *)
(** operator<<(ostream, Point), point.cpp:112-116 *)
Definition print_point (p : point) : str :=
  print_dbl (px p) ++ ch_sp :: print_dbl (py p) ++ ch_sp :: print_dbl (pz p).
(** the loop of face.cpp:241-247: a space after every index but the last *)
Fixpoint print_indices (l : list N) : str :=
  match l with
  | [] => []
  | [i] => print_N i
  | i :: l' => print_N i ++ ch_sp :: print_indices l'
  end.
(** operator<<(ostream, Face), face.cpp:238-249 *)
Definition print_face (f : face) : str := print_N (nsize f) ++ ch_sp :: print_indices f.

(** ** OFF *)
Definition s_mesh : str := ["#"; " "; "M"; "e"; "s"; "h"; ":"; " "]%char.
Definition s_off : str := ["O"; "F"; "F"]%char.
Definition ch_hash : ascii := "#"%char.
(** print_header, off_stream.h:132-137 *)
Definition off_header (m : mesh) : str :=
  s_mesh ++ m_name m ++ [ch_nl] ++ s_off ++ [ch_nl] ++
  print_N (nsize (m_points m)) ++ [ch_sp] ++ print_N (nsize (m_faces m)) ++ [ch_sp; ch_0; ch_nl].
(** operator<<(Mesh), off_stream.h:85-92, with print_points (138-148) and
    print_faces (149-159) *)
Definition off_write (m : mesh) : str :=
  off_header m ++ concat (map (fun p => print_point p ++ [ch_nl]) (m_points m))
               ++ concat (map (fun f => print_face f ++ [ch_nl]) (m_faces m)).

(** parse, off_stream.h:161-180: the predicate is [line.at(0) == '#' || line.empty()],
    so an empty line throws out_of_range *)
Definition off_keep (l : str) : outcome bool :=
  match l with [] => Throw OutOfRange | c :: _ => Ok (negb (Ascii.eqb c ch_hash)) end.
Fixpoint off_filter (ls : list str) : outcome (list str) :=
  match ls with
  | [] => Ok []
  | l :: ls => let* k := off_keep l in let* r := off_filter ls in Ok (if k then l :: r else r)
  end.
Definition off_parse (txt : str) : outcome (list str) := off_filter (readlines txt).

(** std::copy of the items into a vector of n value-initialised elements: writing past
    the end is undefined *)
Definition copy_into (n : N) (l : list N) : outcome (list N) :=
  if (n <? nsize l)%N then UB else Ok (l ++ repeat 0%N (N.to_nat n - length l)).

(** read_header, off_stream.h:181-198.  [lines.size() != 2 + sizes[0] + sizes[1]] wraps:
    if the true sum is not the number of lines but agrees with it modulo 2^64, at least
    one count exceeds the memory; the reader then throws length_error or bad_alloc or
    reads out of bounds, depending on the unspecified evaluation order of the arguments
    at 113-123.  That case is UB in the model. *)
Definition off_counts (lines : list str) : outcome (N * N) :=
  let* l1 := vidx lines 1 in
  let* sizes := copy_into 3 (scan_sizes l1) in
  let* p := vidx sizes 0 in let* f := vidx sizes 1 in let* z := vidx sizes 2 in
  if negb (z =? 0)%N then Throw RangeError
  else if (nsize lines =? 2 + p + f)%N then Ok (p, f)
  else if (nsize lines =? wrap64 (2 + p + f))%N then UB
  else Throw RangeError.

(** read_points, off_stream.h:199-228: unchecked coordinates[0..2] *)
Definition off_point (l : str) : outcome point :=
  let c := scan_doubles l in
  let* x := vidx c 0 in let* y := vidx c 1 in let* z := vidx c 2 in Ok (mkPoint x y z).
(** vector<size_t>::max_size() *)
Definition max_indexes : N := 1152921504606846975%N.
(** the lambda of read_faces, off_stream.h:244-261 *)
Definition off_face (l : str) : outcome face :=
  let '(n, r) := scan_size_n l in
  if (max_indexes <? n)%N then Throw LengthError
  else
    let* idx := copy_into n (match r with Some r => scan_sizes r | None => [] end) in
    face_make idx.
(** operator>>(Mesh), off_stream.h:98-126, with read_points and read_faces.  The two
    arguments of the constructor are evaluated in an unspecified order; reading points
    never throws, so only the priority of UB over an exception depends on it: UB wins. *)
Definition off_read (txt : str) : outcome mesh :=
  let* lines := off_parse txt in
  match lines with
  | [] => Throw OutOfRange
  | l0 :: rest =>
    if negb (str_eqb l0 s_off) then Throw IosFailure
    else if (length lines <=? 1)%nat then Throw OutOfRange
    else
      let* (p, f) := off_counts lines in
      let* P := omapM off_point (firstn (N.to_nat p) (skipn 2 lines)) in
      let* F := omapM off_face (firstn (N.to_nat f) (skipn (2 + N.to_nat p) lines)) in
      Ok (mesh_make [] P F)
  end.

(** ** OBJ *)
(** shifts, obj_stream.h:93-107: [std::prev(end)] of an empty vector is undefined;
    otherwise 0 followed by the partial sums of the point counts *)
Fixpoint partial_sums (acc : N) (l : list N) : list N :=
  match l with [] => [] | n :: l => let s := wrap64 (acc + n) in s :: partial_sums s l end.
Definition obj_shifts (ms : list mesh) : outcome (list N) :=
  match ms with
  | [] => UB
  | _ => Ok (partial_sums 0 (0%N :: removelast (map (fun m => nsize (m_points m)) ms)))
  end.
Definition ch_v : ascii := "v"%char.
Definition ch_o : ascii := "o"%char.
Definition ch_f : ascii := "f"%char.
(** print_mesh_points, obj_stream.h:144-154 *)
Definition obj_points (m : mesh) : str :=
  concat (map (fun p => ch_v :: ch_sp :: print_point p ++ [ch_nl]) (m_points m)).
(** one line of print_mesh_faces, obj_stream.h:168-174 *)
Definition obj_face_line (shift : N) (f : face) : str :=
  ch_f :: ch_sp :: concat (map (fun i => print_N (wrap64 (i + shift + 1)) ++ [ch_sp]) f).
(** print_mesh_faces, obj_stream.h:160-176 *)
Definition obj_mesh_faces (m : mesh) (shift : N) : str :=
  ch_nl :: ch_o :: ch_sp :: m_name m ++ [ch_nl] ++
  concat (map (fun f => obj_face_line shift f ++ [ch_nl]) (m_faces m)).
(** operator<<(vector<Mesh>), obj_stream.h:91-113, print_points (139-143), print_faces (155-159) *)
Definition obj_write (ms : list mesh) : outcome str :=
  let* shifts := obj_shifts ms in
  Ok (concat (map obj_points ms) ++ concat (map (fun ms => obj_mesh_faces (fst ms) (snd ms)) (combine ms shifts))).

(** parse, obj_stream.h:178-197: the predicate is [line.empty() || line.at(0) == '#'] *)
Definition obj_keep (l : str) : bool :=
  match l with [] => false | c :: _ => negb (Ascii.eqb c ch_hash) end.
Definition obj_parse (txt : str) : list str := filter obj_keep (readlines txt).

(** str2pt, io_algorithms.cpp:27-46: with four coordinates, coordinates[4] is read out
    of bounds *)
Definition str2pt (c : list dbl) : outcome point :=
  match c with
  | [x; y; z] => Ok (mkPoint x y z)
  | [_; _; _; _] => UB
  | _ => Throw IosFailure
  end.
(** line2pt, io_algorithms.cpp:12-26 *)
Definition line2pt (l : str) : outcome point := str2pt (scan_doubles l).

(** [cursor->front() == c] and [substr(1)]; lines are not empty after obj_parse *)
Definition front_is (c : ascii) (l : str) : bool :=
  match l with a :: _ => Ascii.eqb a c | [] => false end.
(** the loop of read_points, obj_stream.h:199-215: (points after the initial origin, remaining lines) *)
Fixpoint obj_read_points (ls : list str) : outcome (list point * list str) :=
  match ls with
  | l :: ls' => if front_is ch_v l then
                  let* p := line2pt (tl l) in
                  let* (P, r) := obj_read_points ls' in Ok (p :: P, r)
                else Ok ([], ls)
  | [] => Ok ([], [])
  end.
(** [buffer >> name] on substr(1), obj_stream.h:303-305 *)
Fixpoint take_word (s : str) : str :=
  match s with c :: s' => if is_space c then [] else c :: take_word s' | [] => [] end.
Definition obj_name (l : str) : str := take_word (skip_ws (tl l)).
(** object_names, obj_stream.h:291-347: each 'o' line with the lines up to the next one.
    The code stores (first line, number of lines) and re-slices the same deque; the
    model stores the slice. *)
Fixpoint until_o (ls : list str) : list str :=
  match ls with l :: ls' => if front_is ch_o l then [] else l :: until_o ls' | [] => [] end.
Fixpoint obj_sections (ls : list str) : list (str * list str) :=
  match ls with
  | l :: ls' => if front_is ch_o l then (obj_name l, until_o ls') :: obj_sections ls' else obj_sections ls'
  | [] => []
  end.
(** std::string operator<: lexicographic on unsigned characters *)
Fixpoint str_ltb (a b : str) : bool :=
  match a, b with
  | [], _ :: _ => true
  | x :: a, y :: b =>
    if (N_of_ascii x <? N_of_ascii y)%N then true
    else if (N_of_ascii y <? N_of_ascii x)%N then false else str_ltb a b
  | _, [] => false
  end.
(** std::map<string, _>::emplace: sorted, an existing key is kept *)
Fixpoint map_emplace {A} (k : str) (v : A) (l : list (str * A)) : list (str * A) :=
  match l with
  | [] => [(k, v)]
  | (k', v') :: l' =>
    if str_ltb k k' then (k, v) :: l
    else if str_ltb k' k then (k', v') :: map_emplace k v l'
    else l
  end.
(** obj_stream.h:335-346 *)
Definition obj_objects (ls : list str) : list (str * list str) :=
  fold_left (fun m o => map_emplace (fst o) (snd o) m) (obj_sections ls) [].

(** index_map: std::map<size_t,size_t> as pairs (old, new) in order of insertion (only
    count, emplace, size, operator[] and an order-independent loop are used on it) *)
Definition imap := list (N * N).
Fixpoint imap_find (k : N) (m : imap) : option N :=
  match m with [] => None | (a, b) :: m => if (a =? k)%N then Some b else imap_find k m end.
(** the loop of obj_stream.h:273-276: (map, maped_index) *)
Fixpoint imap_add (idx : list N) (m : imap) (next : N) : imap :=
  match idx with
  | [] => m
  | i :: idx => match imap_find i m with
                | Some _ => imap_add idx m next
                | None => imap_add idx (m ++ [(i, next)]) (wrap64 (next + 1))
                end
  end.
(** read_facet, obj_stream.h:261-289: doubles converted to size_t; index_map[index]
    would insert 0 for a missing key, which cannot happen after the loop *)
Definition obj_facet (l : str) (m : imap) : outcome (face * imap) :=
  let* idx := omapM size_of_dbl (scan_doubles l) in
  let m' := imap_add idx m (nsize m) in
  let* f := face_make (map (fun i => match imap_find i m' with Some j => j | None => 0%N end) idx) in
  Ok (f, m').
(** read_facets, obj_stream.h:244-259 *)
Fixpoint obj_facets (ls : list str) (m : imap) : outcome (list face * imap) :=
  match ls with
  | [] => Ok ([], m)
  | l :: ls => let* (f, m') := obj_facet (tl l) m in
               let* (fs, m'') := obj_facets ls m' in Ok (f :: fs, m'')
  end.
(** v[i] = a, out of bounds is undefined *)
Definition vset {A} (l : list A) (i : N) (a : A) : outcome (list A) :=
  if (i <? nsize l)%N then Ok (firstn (N.to_nat i) l ++ a :: skipn (S (N.to_nat i)) l) else UB.
(** select, io_algorithms.h:11-20 *)
Definition obj_select (P : list point) (m : imap) : outcome (list point) :=
  ofold (fun sel on => let* p := vidxN P (fst on) in vset sel (snd on) p) m
        (repeat point_default (length m)).
(** read_object, obj_stream.h:236-242 *)
Definition obj_object (P : list point) (o : str * list str) : outcome mesh :=
  let* (F, m) := obj_facets (snd o) [] in
  let* Q := obj_select P m in
  Ok (mesh_make (fst o) Q F).
(** operator>>(vector<Mesh>), obj_stream.h:119-133, read_objects (217-234) *)
Definition obj_read (txt : str) : outcome (list mesh) :=
  match obj_parse txt with
  | [] => Throw OutOfRange
  | lines =>
    let* (P, rest) := obj_read_points lines in
    omapM (obj_object (point_default :: P)) (obj_objects rest)
  end.
