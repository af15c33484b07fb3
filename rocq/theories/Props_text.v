(** * Properties C18-C25: text of numbers, lines, OFF files. *)
From Coq Require Import QArith Qabs String.
From Verif Require Import Base Dbl Dbl_facts Decimal Shadow Spec_shadow Streams Spec_text
  Scan_proofs Lines_proofs Shadow_proofs Off_proofs.
Close Scope Q_scope.
Close Scope string_scope.

Definition txt (s : string) : str := list_ascii_of_string s.
Definition nl : string := String (Ascii.ascii_of_nat 10) EmptyString.

(** C18: text of a double *)
Theorem C18_stable : forall x, real_double x -> exists y, reads_back x y /\ real_double y /\
  (not_tiny x -> print_dbl y = print_dbl x /\ reads_back y y).
Proof. exact C18_stable_proof. Qed.
Print Assumptions C18_stable.
Theorem C18_exact : forall x D k, real_double x -> (0 <= D < 1000000)%Z ->
  (Qabs (dval x) == inject_Z D * (10#1) ^ k)%Q -> reads_back x x.
Proof. exact C18_exact_proof. Qed.
Print Assumptions C18_exact.
Theorem C18_error : forall x y, real_double x -> not_tiny x -> reads_back x y ->
  (Qabs (dval x - dval y) <= (6#1000000) * Qabs (dval x))%Q.
Proof. exact C18_error_proof. Qed.
Print Assumptions C18_error.
Theorem C18_tiny_refuted : exists x y, real_double x /\ reads_back x y /\ print_dbl y <> print_dbl x.
Proof. exact C18_tiny_refuted_proof. Qed.
Print Assumptions C18_tiny_refuted.
Theorem C18_lossy_refuted : exists x y, real_double x /\ not_tiny x /\ reads_back x y /\ ~ (dval x == dval y)%Q.
Proof. exact C18_lossy_refuted_proof. Qed.
Print Assumptions C18_lossy_refuted.
(** the characters: 1234567 is written 1.23457e+06, 1/8 is 0.125, -300 is -300 *)
Example C18_example : print_dbl (dofZ 1234567) = txt "1.23457e+06" /\
  print_dbl (S754_finite false 4503599627370496 (-55)) = txt "0.125" /\ print_dbl (dofZ (-300)) = txt "-300" /\
  (Qabs (dval (dofZ (-300))) == inject_Z 3 * (10#1) ^ 2)%Q /\ real_double (dofZ (-300)).
Proof. repeat split; vm_compute; reflexivity. Qed.

(** C19: text of an index *)
Theorem C19_size_round_trip : forall n rest, (n < two64)%N ->
  (forall c r, rest = c :: r -> is_digit c = false) ->
  scan_size (print_N n ++ rest) = Some (n, rest).
Proof. exact C19_size_proof. Qed.
Print Assumptions C19_size_round_trip.
Theorem C19_index_as_double : forall n, (n < 2 ^ 53)%N -> exists d,
  scan_double (print_N n) = Some (d, []) /\ (dval d == inject_Z (Z.of_N n))%Q /\ size_of_dbl d = Ok n.
Proof. exact C19_double_proof. Qed.
Print Assumptions C19_index_as_double.
(** the bound is sharp: 2^53 + 1 is read as 2^53 *)
Theorem C19_double_bound_refuted : exists d,
  scan_double (print_N (2 ^ 53 + 1)) = Some (d, []) /\ size_of_dbl d = Ok (2 ^ 53)%N.
Proof. exists (S754_finite false 4503599627370496 1). split; vm_compute; reflexivity. Qed.
Print Assumptions C19_double_bound_refuted.
Example C19_example : print_N 18446744073709551615 = txt "18446744073709551615" /\
  scan_size (txt "18446744073709551615 7") = Some (18446744073709551615%N, txt " 7").
Proof. split; vm_compute; reflexivity. Qed.

(** C20: lines *)
Theorem C20_reading_inverts_writing : forall ls last, (forall l, In l (last :: ls) -> ~ In newline l) ->
  readlines (concat (map print_line ls) ++ last) = ls ++ (match last with [] => [] | _ => [last] end).
Proof. exact C20_lines_proof. Qed.
Print Assumptions C20_reading_inverts_writing.
Theorem C20_writing_inverts_reading : forall t,
  (forall l, In l (readlines t) -> ~ In newline l) /\
  (concat (map print_line (readlines t)) = t \/ concat (map print_line (readlines t)) = t ++ [newline]).
Proof. exact C20_inverse_proof. Qed.
Print Assumptions C20_writing_inverts_reading.
Example C20_example : readlines (txt ("ab" ++ nl ++ nl ++ "c")) = [txt "ab"; []; txt "c"].
Proof. vm_compute. reflexivity. Qed.

(** C21: OFF round trip *)
Theorem C21_off_round_trip : forall m, off_savable m -> exists m', off_read (off_write m) = Ok m' /\
  m_faces m' = m_faces m /\ Forall2 pt_reads_back (m_points m) (m_points m') /\ tight_box (m_points m') (m_bbox m') /\ m_name m' = [].
Proof. exact C21_proof. Qed.
Print Assumptions C21_off_round_trip.
Definition tri_mesh : mesh :=
  mesh_make (txt "tri") [p123; mkPoint (dofZ 1234567) (dofZ (-4)) (dofZ 0); point_default] [[0; 2; 1]%N; [1; 0; 2; 18446744073709551615]%N].
Example C21_example : off_savable tri_mesh /\
  off_write tri_mesh = txt ("# Mesh: tri" ++ nl ++ "OFF" ++ nl ++ "3 2 0" ++ nl ++ "1 2 3" ++ nl ++ "1.23457e+06 -4 0" ++ nl ++ "0 0 0" ++ nl
                       ++ "3 0 2 1" ++ nl ++ "4 1 0 2 18446744073709551615" ++ nl).
Proof.
  split; [|vm_compute; reflexivity]. split; [|split; [|split; [|split]]].
  - intros p [<-|[<-|[<-|[]]]]; repeat split; vm_compute; reflexivity.
  - intros f [<-|[<-|[]]]; (split; [cbn; lia|]; split; [vm_compute; discriminate|]); intros i Hi; cbn in Hi;
    repeat (destruct Hi as [<-|Hi]; [vm_compute; reflexivity|]); destruct Hi.
  - cbn. intuition discriminate.
  - vm_compute; reflexivity.
  - vm_compute; reflexivity.
Qed.

(** C22: a second save writes the same bytes after the name comment, whatever the new name *)
Theorem C22_off_stable : forall m m' n, off_savable m -> (forall p, In p (m_points m) -> pt_not_tiny p) ->
  off_read (off_write m) = Ok m' ->
  exists body, off_write m = mesh_comment ++ m_name m ++ newline :: body /\
               off_write (fst (mesh_set_name m' n)) = mesh_comment ++ n ++ newline :: body.
Proof. exact C22_proof. Qed.
Print Assumptions C22_off_stable.
Example C22_example : off_savable tri_mesh /\ (forall p, In p (m_points tri_mesh) -> pt_not_tiny p) /\
  (exists m', off_read (off_write tri_mesh) = Ok m' /\ m_points m' <> m_points tri_mesh).
Proof.
  split; [apply C21_example|]. split.
  - intros p [<-|[<-|[<-|[]]]]; (split; [|split]); (left; vm_compute; reflexivity) || (right; vm_compute; discriminate).
  - eexists. split; [vm_compute; reflexivity|]. vm_compute. discriminate.
Qed.

(** C23: what a successful read implies; empty lines are rejected *)
Theorem C23_accepts_only_consistent : forall t m, off_read t = Ok m ->
  let sig := significant (readlines t) in
  ~ In [] (readlines t) /\ nth_error sig 0 = Some off_keyword /\
  (exists l1, nth_error sig 1 = Some l1 /\ (length (scan_sizes l1) <= 3)%nat /\
     item (scan_sizes l1) 0 = nsize (m_points m) /\ item (scan_sizes l1) 1 = nsize (m_faces m) /\ item (scan_sizes l1) 2 = 0%N) /\
  length sig = (2 + length (m_points m) + length (m_faces m))%nat /\
  (forall f, In f (m_faces m) -> 3 <= length f)%nat.
Proof. exact C23_accepts_proof. Qed.
Print Assumptions C23_accepts_only_consistent.
(** the reader's three outcomes, completely: files accepted, what is read from them, and every exception
    (undefined behaviour is C24) *)
Theorem C23_accepts_iff : forall t, (exists m, off_read t = Ok m) <->
  exists counts rest p f, off_file t counts rest /\ announces counts p f /\ (nsize rest = p + f)%N /\
    (forall l, In l (firstn (N.to_nat p) rest) -> good_point_line l) /\ (forall l, In l (skipn (N.to_nat p) rest) -> good_face_line l).
Proof. exact C23_accepts_iff_proof. Qed.
Print Assumptions C23_accepts_iff.
Theorem C23_content : forall t m, off_read t = Ok m -> exists counts rest, off_file t counts rest /\ announces counts (nsize (m_points m)) (nsize (m_faces m)) /\
  exists pl fl, rest = pl ++ fl /\ Forall2 point_line pl (m_points m) /\ Forall2 face_line fl (m_faces m) /\ m_name m = [] /\ tight_box (m_points m) (m_bbox m).
Proof. exact C23_content_proof. Qed.
Print Assumptions C23_content.
Theorem C23_exceptions : forall t e, off_read t = Throw e <->
  (e = OutOfRange /\ (In [] (readlines t) \/ significant (readlines t) = [] \/ significant (readlines t) = [off_keyword])) \/
  (e = IosFailure /\ ~ In [] (readlines t) /\ exists l rest, significant (readlines t) = l :: rest /\ l <> off_keyword) \/
  (e = RangeError /\ exists counts rest, off_file t counts rest /\ (length (scan_sizes counts) <= 3)%nat /\
     (item (scan_sizes counts) 2 <> 0 \/ (2 + item (scan_sizes counts) 0 + item (scan_sizes counts) 1) mod two64 <> 2 + nsize rest /\ nsize rest <> item (scan_sizes counts) 0 + item (scan_sizes counts) 1)%N) \/
  (exists counts rest p f pre l post, off_file t counts rest /\ announces counts p f /\ (nsize rest = p + f)%N /\
     (forall l, In l (firstn (N.to_nat p) rest) -> good_point_line l) /\ skipn (N.to_nat p) rest = pre ++ l :: post /\
     (forall l', In l' pre -> good_face_line l') /\ (e = LogicError /\ few l \/ e = LengthError /\ huge l)).
Proof. exact C23_exceptions_proof. Qed.
Print Assumptions C23_exceptions.
Theorem C23_rejects_empty_line : forall t, In [] (readlines t) -> off_read t = Throw OutOfRange.
Proof. exact C23_rejects_empty_proof. Qed.
Print Assumptions C23_rejects_empty_line.
Example C23_example :
  (exists m, off_read (txt ("# c" ++ nl ++ "OFF" ++ nl ++ "1 1 0" ++ nl ++ "0 .5 2e1" ++ nl ++ "3 0 0 0")) = Ok m) /\
  off_read (txt ("OFF" ++ nl ++ nl ++ "0 0 0" ++ nl)) = Throw OutOfRange /\
  off_read (txt ("OFF" ++ nl ++ "0 1 0" ++ nl)) = Throw RangeError /\
  off_read (txt ("off" ++ nl ++ "0 0 0" ++ nl)) = Throw IosFailure.
Proof. split; [eexists|repeat split]; vm_compute; reflexivity. Qed.

(** C24: undefined behaviour of the reader, exactly; padding *)
Theorem C24_undefined_iff : forall t, off_read t = UB <->
  ~ In [] (readlines t) /\ exists l1 rest, significant (readlines t) = off_keyword :: l1 :: rest /\
  let s := scan_sizes l1 in let p := item s 0 in let f := item s 1 in
  ((3 < length s)%nat \/
   ((length s <= 3)%nat /\ item s 2 = 0%N /\
    ((nsize rest <> p + f /\ (2 + nsize rest) = (2 + p + f) mod two64)%N \/
     ((nsize rest = p + f)%N /\
      ((exists l, In l (firstn (N.to_nat p) rest) /\ (length (scan_doubles l) < 3)%nat) \/
       ((forall l, In l (firstn (N.to_nat p) rest) -> (3 <= length (scan_doubles l))%nat) /\
        exists pre l post, skipn (N.to_nat p) rest = pre ++ l :: post /\ overfull l /\ Forall good_face_line pre)))))).
Proof. exact C24_ub_proof. Qed.
Print Assumptions C24_undefined_iff.
Theorem C24_short_face_padded : forall t m, off_read t = Ok m ->
  Forall2 (fun l f => let '(n, items) := face_items l in
             good_face_line l /\ f = items ++ repeat 0%N (N.to_nat n - length items))
          (skipn (2 + length (m_points m)) (significant (readlines t))) (m_faces m).
Proof. exact C24_padded_proof. Qed.
Print Assumptions C24_short_face_padded.
Example C24_example :
  off_read (txt ("OFF" ++ nl ++ "1 1 0" ++ nl ++ "0 0 0" ++ nl ++ "3 0 0 0 255 255 255")) = UB /\
  off_read (txt ("OFF" ++ nl ++ "1 1 0" ++ nl ++ "0 0" ++ nl ++ "3 0 0 0")) = UB /\
  off_read (txt ("OFF" ++ nl ++ "0 0 0 0" ++ nl)) = UB /\
  (exists m, off_read (txt ("OFF" ++ nl ++ "1 1 0" ++ nl ++ "0 0 0" ++ nl ++ "4 5 6")) = Ok m /\ m_faces m = [[5; 6; 0; 0]%N]).
Proof. split; [|split; [|split; [|eexists; split]]]; vm_compute; reflexivity. Qed.

(** C25: indices are not validated *)
Theorem C25_indices_unchecked : forall n k : N, (n < two64)%N -> (k < two64)%N -> exists t m,
  off_read t = Ok m /\ nsize (m_points m) = n /\ m_faces m = [[k; k; k]].
Proof. exact C25_proof. Qed.
Print Assumptions C25_indices_unchecked.
Theorem C25_dangling_index : exists t m f i, off_read t = Ok m /\ In f (m_faces m) /\ In i f /\
  (nsize (m_points m) <= i)%N.
Proof.
  exists (txt ("OFF" ++ nl ++ "1 1 0" ++ nl ++ "0 0 0" ++ nl ++ "3 0 1 7" ++ nl)). do 3 eexists.
  split; [vm_compute; reflexivity|]. split; [left; reflexivity|]. split; [right; left; reflexivity|]. vm_compute. discriminate.
Qed.
Print Assumptions C25_dangling_index.
