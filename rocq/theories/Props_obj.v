(** * Properties C26-C30: OBJ files. *)
From Coq Require Import String.
From Verif Require Import Base Dbl Dbl_facts Decimal Shadow Spec_shadow Streams Spec_text
  Shadow_proofs Props_text Obj_proofs Objw_proofs.
Close Scope string_scope.

(** C26: OBJ round trip *)
Theorem C26_obj_round_trip : forall ms, obj_savable ms -> exists t rs, obj_write ms = Ok t /\ obj_read t = Ok rs /\
  increasing (map m_name rs) /\ length rs = length ms /\
  (forall m, In m ms -> exists r, In r rs /\ m_name r = m_name m /\ poly_reads_back (polygons m) (polygons r) /\ tight_box (m_points r) (m_bbox r) /\ mesh_wf r /\ (nsize (m_points r) <= nsize (m_points m))%N).
Proof. exact C26_proof. Qed.
Print Assumptions C26_obj_round_trip.
Definition mesh_b : mesh := mesh_make (txt "b") [p123; mkPoint (dofZ 1234567) (dofZ (-4)) (dofZ 0); point_default] [[0; 2; 1]%N].
Definition mesh_a : mesh := mesh_make (txt "a") [point_default; p123; p123; p123] [[3; 2; 1; 0]%N; [1; 2; 3]%N].
Example C26_example : obj_savable [mesh_b; mesh_a] /\
  obj_write [mesh_b; mesh_a] = Ok (txt ("v 1 2 3" ++ nl ++ "v 1.23457e+06 -4 0" ++ nl ++ "v 0 0 0" ++ nl ++
     "v 0 0 0" ++ nl ++ "v 1 2 3" ++ nl ++ "v 1 2 3" ++ nl ++ "v 1 2 3" ++ nl ++ nl ++
     "o b" ++ nl ++ "f 1 3 2 " ++ nl ++ nl ++ "o a" ++ nl ++ "f 7 6 5 4 " ++ nl ++ "f 5 6 7 " ++ nl)).
Proof.
  split; [|vm_compute; reflexivity]. split; [discriminate|]. split; [|split].
  - intros m [<-|[<-|[]]]; (split; [|split]).
    + intros f [<-|[]]. split; [cbn; lia|]. intros i Hi. cbn in Hi. repeat (destruct Hi as [<-|Hi]; [reflexivity|]). destruct Hi.
    + intros c [<-|[]]. reflexivity.
    + intros p [<-|[<-|[<-|[]]]]; repeat split; vm_compute; reflexivity.
    + intros f [<-|[<-|[]]]; (split; [cbn; lia|]); intros i Hi; cbn in Hi; repeat (destruct Hi as [<-|Hi]; [reflexivity|]); destruct Hi.
    + intros c [<-|[]]. reflexivity.
    + intros p [<-|[<-|[<-|[<-|[]]]]]; repeat split; vm_compute; reflexivity.
  - constructor; [|constructor; [|constructor]]; cbn; intuition discriminate.
  - reflexivity.
Qed.

(** C27: objects are ordered by name, the first of equal names is kept *)
Theorem C27_ordered_first_kept : forall t rs, obj_read t = Ok rs -> exists vs rest, obj_file t vs rest /\
  increasing (map m_name rs) /\ (forall n, In n (map m_name rs) <-> exists body, first_section rest n body).
Proof. exact C27_proof. Qed.
Print Assumptions C27_ordered_first_kept.
Definition dup_text : str := txt ("v 0 0 0" ++ nl ++ "v 1 0 0" ++ nl ++ "v 0 1 0" ++ nl ++
  "o roof 7" ++ nl ++ "f 1 2 3" ++ nl ++ "o base" ++ nl ++ "f 3 2 1" ++ nl ++ "f 1 3 2" ++ nl ++ "o roof" ++ nl ++ "f 2 2 2").
Example C27_example : exists a b, obj_read dup_text = Ok [a; b] /\ m_name a = txt "base" /\ m_name b = txt "roof" /\
  m_faces b = [[0; 1; 2]%N] /\ length (m_faces a) = 2%nat.
Proof. do 2 eexists. split; [vm_compute; reflexivity|repeat split]. Qed.

(** C28: index compaction, for every object of every accepted file *)
Theorem C28_compaction : forall t rs vs rest r body, obj_read t = Ok rs -> obj_file t vs rest -> In r rs ->
  first_section rest (m_name r) body ->
  exists P idxs, Forall2 vertex_line vs P /\ Forall2 good_index_line body idxs /\
    (forall i, In i (concat idxs) -> (i <= nsize P)%N) /\
    map Some (m_points r) = map (fun i => nth_error (point_default :: P) (N.to_nat i)) (first_uses (concat idxs)) /\
    polygons r = map (map (fun i => nth_error (point_default :: P) (N.to_nat i))) idxs /\ mesh_wf r /\ tight_box (m_points r) (m_bbox r).
Proof. exact C28_proof. Qed.
Print Assumptions C28_compaction.
(** points are numbered in order of first use *)
Theorem C28_first_use_numbering : forall P n body idxs, Forall2 good_index_line body idxs ->
  (forall i, In i (concat idxs) -> (i < nsize P)%N) ->
  exists r, obj_object P (n, body) = Ok r /\ m_name r = n /\
    Forall2 (Forall2 (fun i j => nth_error (first_uses (concat idxs)) (N.to_nat j) = Some i)) idxs (m_faces r).
Proof. exact C28_numbering_proof. Qed.
Print Assumptions C28_first_use_numbering.
Example C28_example : exists a, obj_read (txt ("v 0 0 0" ++ nl ++ "v 1 0 0" ++ nl ++ "v 0 1 0" ++ nl ++ "v 1 1 1" ++ nl ++
    "o x" ++ nl ++ "f 4 2 3" ++ nl ++ "f 3 4 0")) = Ok [a] /\ m_faces a = [[0; 1; 2]; [2; 0; 3]]%N /\ length (m_points a) = 4%nat /\
    nth_error (m_points a) 3 = Some point_default /\ first_uses [4; 2; 3; 3; 4; 0]%N = [4; 2; 3; 0]%N.
Proof. eexists. split; [vm_compute; reflexivity|repeat split]. Qed.

(** C29: undefined behaviour of the reader, exactly *)
Theorem C29_undefined_iff : forall t vs rest objs, obj_file t vs rest -> objects_of rest objs ->
  (obj_read t = UB <->
   (exists pre l post, vs = pre ++ l :: post /\ numbers l = 4%nat /\ forall l', In l' pre -> numbers l' = 3%nat) \/
   ((forall l, In l vs -> numbers l = 3%nat) /\
    exists pre n body post, objs = pre ++ (n, body) :: post /\ object_undefined (length vs) body /\
      forall n' b', In (n', b') pre -> object_fine (length vs) b')).
Proof. exact C29_UB_proof. Qed.
Print Assumptions C29_undefined_iff.
(** files accepted, exactly *)
Theorem C29_accepts_iff : forall t vs rest objs, obj_file t vs rest -> objects_of rest objs ->
  ((exists rs, obj_read t = Ok rs) <-> obj_lines t <> [] /\ (forall l, In l vs -> numbers l = 3%nat) /\ forall n body, In (n, body) objs -> object_fine (length vs) body).
Proof. exact C29_accepts_proof. Qed.
Print Assumptions C29_accepts_iff.
(** every text decomposes this way, and in one way only *)
Theorem C29_decomposition : forall t, exists vs rest objs, obj_file t vs rest /\ objects_of rest objs /\
  forall vs' rest' objs', obj_file t vs' rest' -> objects_of rest' objs' -> vs' = vs /\ rest' = rest /\ objs' = objs.
Proof. exact C29_decomposition_proof. Qed.
Print Assumptions C29_decomposition.
Theorem C29_bad_vertex_throws : forall t vs rest pre l post, obj_file t vs rest -> vs = pre ++ l :: post ->
  (forall l', In l' pre -> numbers l' = 3%nat) -> numbers l <> 3%nat -> numbers l <> 4%nat -> obj_read t = Throw IosFailure.
Proof. exact C29_vertex_proof. Qed.
Print Assumptions C29_bad_vertex_throws.
Example C29_example :
  obj_read (txt ("v 0 0 0" ++ nl ++ "o x" ++ nl ++ "f 1 1 2")) = UB /\
  obj_read (txt ("v 0 0 0" ++ nl ++ "o x" ++ nl ++ "f -1 -1 -1")) = UB /\
  obj_read (txt ("v 0 0 0 1" ++ nl ++ "o x" ++ nl ++ "f 1 1 1")) = UB /\
  obj_read (txt ("v 0 0 0" ++ nl ++ "vn 0 0 1" ++ nl)) = Throw IosFailure /\
  obj_read (txt ("v 0 0 0" ++ nl ++ "o x" ++ nl ++ "f 1/2 1/3 1/4")) = Throw LogicError.
Proof. repeat split; vm_compute; reflexivity. Qed.

(** C30: index ranges of the written meshes *)
Theorem C30_index_ranges : forall pre m post t, writable (pre ++ m :: post) -> mesh_wf m ->
  (sum_points (pre ++ m :: post) < two64)%N -> obj_write (pre ++ m :: post) = Ok t ->
  exists vs A fs B, readlines t = vs ++ A ++ (["o"; " "]%char ++ m_name m) :: fs ++ B /\
    Forall2 (fun l f => scan_sizes (tl l) = map (fun i => (sum_points pre + i + 1)%N) f) fs (m_faces m) /\
    nsize vs = sum_points (pre ++ m :: post) /\
    (forall f i, In f (m_faces m) -> In i f -> exists p, nth_error (m_points m) (N.to_nat i) = Some p /\
       (sum_points pre < sum_points pre + i + 1 <= sum_points pre + nsize (m_points m))%N /\
       nth_error vs (N.to_nat (sum_points pre + i + 1) - 1) = Some (["v"; " "]%char ++ print_point p)).
Proof. exact C30_proof. Qed.
Print Assumptions C30_index_ranges.
Theorem C30_defined_iff_nonempty : forall ms, (sum_points ms < two64)%N -> ((exists t, obj_write ms = Ok t) <-> ms <> []) /\ obj_write [] = UB.
Proof.
  intros ms H. split; [|reflexivity]. split.
  - intros [t E] ->. discriminate.
  - intros Hn. eexists. apply obj_write_lines; auto.
Qed.
Print Assumptions C30_defined_iff_nonempty.
Example C30_example : writable [mesh_b; mesh_a] /\ mesh_wf mesh_a /\ (sum_points [mesh_b; mesh_a] = 7)%N.
Proof.
  destruct C26_example as [(_ & H & _) _]. split; [|split; [apply H; right; left; auto|reflexivity]].
  intros m Hm. split; [apply H; auto|]. apply no_space_no_nl. apply H; auto.
Qed.
