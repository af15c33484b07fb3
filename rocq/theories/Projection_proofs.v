(** * Proofs about facet and brick prints (C52-C55) *)
From Verif Require Import Base Geom Decimal Shadow Handlers Surface Projection Spec_projection.
Open Scope nat_scope.

Lemma height_fixed K (R : rnd_ok K) f p z : plane_height K f p = Ok z -> k_rnd K z = z.
Proof. unfold plane_height. destruct (Qceqb _ _); [discriminate|]. intros E. apply Ok_inj in E. subst z. apply (rnd_tod K R). Qed.
Section PROOFS.
Context (K : kernel) (good : poly -> Prop) (sgood : k_set K -> Prop) (OK : kernel_ok K good sgood).
Local Notation fin f p := (inside K (f_border f) p).
Local Notation fclear f p := (clear K (f_border f) p).
Local Notation fcov f p := (covered K (f_border f) p).
Local Notation shows p := (fun f => face_contains K f p).

Lemma contains_covered f p : face_contains K f p = true <-> fcov f p.
Proof.
  unfold face_contains, poly_contains, covered. rewrite andb_true_iff, forallb_forall. split.
  - intros [A B]. split; [destruct (k_side K _ p); congruence|]. intros h Hh. specialize (B h Hh). destruct (k_side K h p); congruence.
  - intros [A B]. split; [destruct (k_side K _ p); congruence|]. intros h Hh. specialize (B h Hh). destruct (k_side K h p); congruence.
Qed.
Lemma clear_covered P p : clear K P p -> (covered K P p <-> inside K P p).
Proof.
  intros [A B]. unfold covered, inside. split.
  - intros [C D]. split; [destruct (k_side K _ p); congruence|]. intros h Hh. specialize (B h Hh). specialize (D h Hh). destruct (k_side K h p); congruence.
  - intros [C D]. split; [congruence|]. intros h Hh. rewrite (D h Hh). discriminate.
Qed.
Lemma inside_clear P p : inside K P p -> clear K P p.
Proof. intros [A B]. split; [congruence|]. intros h Hh. rewrite (B h Hh). discriminate. Qed.
Lemma inside_covered P p : inside K P p -> covered K P p.
Proof. intros H. apply clear_covered; auto. now apply inside_clear. Qed.
Lemma side_dec h p : {k_side K h p = Outside} + {k_side K h p <> Outside}.
Proof. destruct (k_side K h p); [right|right|left]; congruence. Qed.
Lemma inside_dec P p : {inside K P p} + {~ inside K P p}.
Proof.
  destruct P as [o hs]. unfold inside. cbn [outer holes].
  destruct (k_side K o p) eqn:E; [|right; intros [X _]; congruence|right; intros [X _]; congruence].
  destruct (Forall_dec (fun h => k_side K h p = Outside) (fun h => side_dec h p) hs) as [F|F].
  - left. split; auto. now apply Forall_forall.
  - right. intros [_ G]. apply F. now apply Forall_forall.
Qed.
Lemma some_inside_dec l p : {some_inside K l p} + {~ some_inside K l p}.
Proof.
  destruct (Exists_dec (fun P => inside K P p) l (fun P => inside_dec P p)) as [E|E].
  - left. apply Exists_exists in E as (P & A & B). exists P; auto.
  - right. intros (P & A & B). apply E. apply Exists_exists. eauto.
Qed.

(** ** Cutting one pair *)
Definition up (l r : face2) (i : poly) : bool :=
  match sample (outer i) with
  | Ok s => match plane_height K l s, plane_height K r s with Ok zl, Ok zr => Qcltb zr zl | _, _ => false end
  | _ => false
  end.
Lemma cut_one_eq l r st i st' : cut_one K l r st i = Ok st' -> st' = if up l r i then (fst st, k_diff K (snd st) i) else (k_diff K (fst st) i, snd st).
Proof.
  unfold cut_one, up. destruct (sample (outer i)) as [s|e|]; cbn [bind]; try discriminate.
  destruct (plane_height K l s) as [zl|e|]; cbn [bind]; try discriminate. destruct (plane_height K r s) as [zr|e|]; cbn [bind]; try discriminate.
  intros H. apply Ok_inj in H. congruence.
Qed.
Lemma cut_fold l r is : forall sl sr sl' sr', Forall good is -> sgood sl -> sgood sr -> ofold (cut_one K l r) is (sl, sr) = Ok (sl', sr') ->
  sgood sl' /\ sgood sr' /\
  (forall p, some_covered K (k_pieces K sl') p -> some_covered K (k_pieces K sl) p) /\
  (forall p, some_covered K (k_pieces K sr') p -> some_covered K (k_pieces K sr) p) /\
  forall p, all_clear K (k_pieces K sl) p -> all_clear K (k_pieces K sr) p -> all_clear K is p ->
    all_clear K (k_pieces K sl') p /\ all_clear K (k_pieces K sr') p /\
    (some_inside K (k_pieces K sl') p <-> some_inside K (k_pieces K sl) p /\ ~ exists i, In i is /\ up l r i = false /\ inside K i p) /\
    (some_inside K (k_pieces K sr') p <-> some_inside K (k_pieces K sr) p /\ ~ exists i, In i is /\ up l r i = true /\ inside K i p).
Proof.
  induction is as [|i is IH]; intros sl sr sl' sr' G Sl Sr H.
  - cbn [ofold] in H. apply Ok_inj in H. injection H as <- <-. split; [auto|]. split; [auto|]. split; [auto|]. split; [auto|].
    intros p A B C. split; [auto|]. split; [auto|]. split; split; try tauto; intros X; split; auto; intros (i & [] & _).
  - inversion G as [|? ? G1 G2]; subst. cbn [ofold] in H. destruct (cut_one K l r (sl, sr) i) as [st|e|] eqn:E; cbn [bind] in H; try discriminate.
    apply cut_one_eq in E. cbn [fst snd] in E. destruct (up l r i) eqn:U; subst st.
    + destruct (IH sl (k_diff K sr i) sl' sr') as (A & B & C & D & F); auto.
      { apply (ok_diff _ _ _ OK); auto. }
      split; [auto|]. split; [auto|]. split; [auto|]. split.
      { intros p Hp. apply D in Hp. now apply (in_diff _ _ _ OK) in Hp. }
      intros p Cl Cr Ci. destruct (at_diff _ _ _ OK sr i p) as [X Y]; auto. { apply Ci; left; auto. }
      destruct (F p) as (F1 & F2 & F3 & F4); auto. { intros P HP. apply Ci; right; auto. }
      split; [auto|]. split; [auto|]. split.
      * rewrite F3. split; intros [P Q]; split; auto.
        -- intros (j & [<-|Hj] & V & W); [congruence|]. apply Q; eauto.
        -- intros (j & Hj & V & W). apply Q. exists j; cbn; auto.
      * rewrite F4, Y. split.
        -- intros [[P Q] R]. split; auto. intros (j & [<-|Hj] & V & W); auto. apply R; eauto.
        -- intros [P Q]. split; [split; auto|]. { intros W. apply Q. exists i; cbn; auto. } intros (j & Hj & V & W). apply Q. exists j; cbn; auto.
    + destruct (IH (k_diff K sl i) sr sl' sr') as (A & B & C & D & F); auto.
      { apply (ok_diff _ _ _ OK); auto. }
      split; [auto|]. split; [auto|]. split.
      { intros p Hp. apply C in Hp. now apply (in_diff _ _ _ OK) in Hp. }
      split; [auto|].
      intros p Cl Cr Ci. destruct (at_diff _ _ _ OK sl i p) as [X Y]; auto. { apply Ci; left; auto. }
      destruct (F p) as (F1 & F2 & F3 & F4); auto. { intros P HP. apply Ci; right; auto. }
      split; [auto|]. split; [auto|]. split.
      * rewrite F3, Y. split.
        -- intros [[P Q] R]. split; auto. intros (j & [<-|Hj] & V & W); auto. apply R; eauto.
        -- intros [P Q]. split; [split; auto|]. { intros W. apply Q. exists i; cbn; auto. } intros (j & Hj & V & W). apply Q. exists j; cbn; auto.
      * rewrite F4. split; intros [P Q]; split; auto.
        -- intros (j & [<-|Hj] & V & W); [congruence|]. apply Q; eauto.
        -- intros (j & Hj & V & W). apply Q. exists j; cbn; auto.
Qed.

Lemma cut_inside l r is : forall sl sr sl' sr', Forall good is -> sgood sl -> sgood sr -> ofold (cut_one K l r) is (sl, sr) = Ok (sl', sr') ->
  (forall p, some_inside K (k_pieces K sl') p -> some_inside K (k_pieces K sl) p) /\
  (forall p, some_inside K (k_pieces K sr') p -> some_inside K (k_pieces K sr) p).
Proof.
  induction is as [|i is IH]; intros sl sr sl' sr' G Sl Sr H.
  - cbn [ofold] in H. apply Ok_inj in H. injection H as <- <-. auto.
  - inversion G as [|? ? G1 G2]; subst. cbn [ofold] in H. destruct (cut_one K l r (sl, sr) i) as [st|e|] eqn:E; cbn [bind] in H; try discriminate.
    apply cut_one_eq in E. cbn [fst snd] in E. destruct (up l r i) eqn:U; subst st; apply IH in H as [A B]; auto; try (apply (ok_diff _ _ _ OK); auto); split; auto.
    + intros p Hp. apply B in Hp. now apply (inside_diff _ _ _ OK) in Hp.
    + intros p Hp. apply A in Hp. now apply (inside_diff _ _ _ OK) in Hp.
Qed.

(** ** What is left of a pair *)
Definition parts (f : face2) (X : list face2) : Prop :=
  Forall (fun x => part_of f x /\ good (f_border x) /\ (forall p, fcov x p -> fcov f p) /\ forall p, fin x p -> fin f p) X /\ apart K (map f_border X).
Definition lost (u : bool) (l r : face2) (p : p2) : Prop := exists i, In i (k_inter2 K (f_border l) (f_border r)) /\ up l r i = u /\ inside K i p.
Lemma occlude_pair_acc l r A B : occlude_pair K l r (A, B) = (let* (X, Y) := occlude_pair K l r ([], []) in Ok (A ++ X, B ++ Y)).
Proof.
  unfold occlude_pair. destruct (k_inter2 K (f_border l) (f_border r)) as [|i is]; auto.
  destruct (ofold _ _ _) as [[sl sr]|e|]; reflexivity.
Qed.
Lemma map_border id pl ps : map f_border (map (fun q => mkFace2 id q pl) ps) = ps.
Proof. rewrite map_map. cbn [f_border]. apply map_id. Qed.
Lemma unpack_parts f s : good (f_border f) -> sgood s -> (forall p, some_covered K (k_pieces K s) p -> fcov f p) -> (forall p, some_inside K (k_pieces K s) p -> fin f p) ->
  parts f (map (fun q => mkFace2 (f_id f) q (f_plane f)) (k_pieces K s)).
Proof.
  intros G S C D. destruct (ok_pieces _ _ _ OK s S) as [A B]. split; [|rewrite map_border; auto].
  apply Forall_map. rewrite Forall_forall in *. intros q Hq. cbn [f_border]. split; [split; reflexivity|]. split; auto.
  split; intros p Hp; [apply C|apply D]; exists q; auto.
Qed.
Lemma pair_spec l r X Y : good (f_border l) -> good (f_border r) -> occlude_pair K l r ([], []) = Ok (X, Y) ->
  parts l X /\ parts r Y /\ forall p, fclear l p -> fclear r p ->
    (forall x, In x X -> fclear x p) /\ (forall x, In x Y -> fclear x p) /\
    ((exists x, In x X /\ fin x p) <-> fin l p /\ ~ lost false l r p) /\
    ((exists y, In y Y /\ fin y p) <-> fin r p /\ ~ lost true l r p).
Proof.
  intros Gl Gr. unfold occlude_pair, lost. destruct (ok_inter2 _ _ _ OK _ _ Gl Gr) as [Gi _].
  pose proof (fun p => at_inter2 _ _ _ OK (f_border l) (f_border r) p Gl Gr) as At.
  destruct (k_inter2 K (f_border l) (f_border r)) as [|i is].
  - cbn [fst snd app]. intros H. apply Ok_inj in H. injection H as <- <-.
    assert (P : forall f, good (f_border f) -> parts f [f]).
    { intros f Gf. split; [constructor; [|constructor]; repeat split; auto; apply H|repeat constructor]. }
    split; [apply P; auto|]. split; [apply P; auto|]. intros p Cl Cr.
    split; [intros x [<-|[]]; auto|]. split; [intros x [<-|[]]; auto|]. split.
    + split; [intros (x & [<-|[]] & H); split; auto; intros (i & [] & _)|intros [H _]; exists l; cbn; auto].
    + split; [intros (x & [<-|[]] & H); split; auto; intros (i & [] & _)|intros [H _]; exists r; cbn; auto].
  - remember (i :: is) as li eqn:Eli. clear Eli. destruct (ofold _ _ _) as [[sl sr]|e|] eqn:E; cbn [bind]; try discriminate.
    cbn [fst snd]. unfold unpack. cbn [app]. intros H. apply Ok_inj in H. injection H as <- <-.
    pose proof E as E'. apply cut_inside in E' as [Il Ir]; auto; try (apply (ok_of _ _ _ OK); auto).
    apply cut_fold in E as (Sl & Sr & Cl & Cr & At2); auto; try (apply (ok_of _ _ _ OK); auto).
    split. { apply unpack_parts; auto; intros p Hp; [apply (in_of _ _ _ OK)|apply (inside_of _ _ _ OK)]; auto. }
    split. { apply unpack_parts; auto; intros p Hp; [apply (in_of _ _ _ OK)|apply (inside_of _ _ _ OK)]; auto. }
    intros p Kl Kr. destruct (at_of _ _ _ OK (f_border l) p Gl Kl) as [O1 O2]. destruct (at_of _ _ _ OK (f_border r) p Gr Kr) as [O3 O4].
    destruct (At p Kl Kr) as [I1 I2]. destruct (At2 p O1 O3 I1) as (A1 & A2 & A3 & A4).
    split. { intros x Hx. apply in_map_iff in Hx as (q & <- & Hq). now apply A1. }
    split. { intros x Hx. apply in_map_iff in Hx as (q & <- & Hq). now apply A2. }
    split.
    + rewrite <- O2, <- A3. split.
      * intros (x & Hx & H). apply in_map_iff in Hx as (q & <- & Hq). exists q; auto.
      * intros (q & Hq & H). exists (mkFace2 (f_id l) q (f_plane l)). split; auto. apply in_map_iff; eauto.
    + rewrite <- O4, <- A4. split.
      * intros (x & Hx & H). apply in_map_iff in Hx as (q & <- & Hq). exists q; auto.
      * intros (q & Hq & H). exists (mkFace2 (f_id r) q (f_plane r)). split; auto. apply in_map_iff; eauto.
Qed.
Lemma lost_both u l r p : good (f_border l) -> good (f_border r) -> fclear l p -> fclear r p -> lost u l r p -> fin l p /\ fin r p.
Proof.
  intros Gl Gr Cl Cr (i & Hi & _ & H). apply (at_inter2 _ _ _ OK (f_border l) (f_border r) p); auto. exists i; auto.
Qed.
Lemma both_lost l r p : good (f_border l) -> good (f_border r) -> fclear l p -> fclear r p -> fin l p -> fin r p -> lost true l r p \/ lost false l r p.
Proof.
  intros Gl Gr Cl Cr Hl Hr. destruct (at_inter2 _ _ _ OK (f_border l) (f_border r) p) as [_ [_ A]]; auto.
  destruct A as (i & Hi & H); auto. destruct (up l r i) eqn:U; [left|right]; exists i; auto.
Qed.
Lemma apart_In ps P Q p : apart K ps -> In P ps -> In Q ps -> inside K P p -> inside K Q p -> P = Q.
Proof.
  intros A HP HQ IP IQ. destruct (ForallOrdPairs_In A P Q HP HQ) as [E|[E|E]]; auto; exfalso; eapply E; eauto.
Qed.
Lemma lost_excl l r p : good (f_border l) -> good (f_border r) -> lost true l r p -> lost false l r p -> False.
Proof.
  intros Gl Gr (i & Hi & U & I) (j & Hj & V & J). destruct (ok_inter2 _ _ _ OK _ _ Gl Gr) as [_ A].
  assert (i = j) by (eapply apart_In; eauto). congruence.
Qed.

(** ** Seen facets *)
Lemma filter_none {A} (q : A -> bool) l : (forall a, In a l -> q a = false) -> filter q l = [].
Proof. induction l as [|a l IH]; intros H; cbn; auto. rewrite (H a) by (left; auto). apply IH. intros; apply H; right; auto. Qed.
Lemma shows_in f p : fclear f p -> (face_contains K f p = true <-> fin f p).
Proof. intros C. rewrite contains_covered. now apply clear_covered. Qed.
Lemma parts_seen f X p : parts f X -> (forall x, In x X -> fclear x p) ->
  ((exists x, In x X /\ fin x p) -> exists x, filter (shows p) X = [x] /\ part_of f x) /\
  (~ (exists x, In x X /\ fin x p) -> filter (shows p) X = []).
Proof.
  intros [F A] C. split.
  - intros (x & Hx & H). exists x. split; [|rewrite Forall_forall in F; apply F in Hx; tauto].
    induction X as [|y X IH]; [destruct Hx|]. cbn [map] in A. inversion A as [|? ? A1 A2]; subst. inversion F as [|? ? F1 F2]; subst. cbn [filter].
    destruct Hx as [->|Hx].
    + assert (E : face_contains K x p = true) by (apply shows_in; auto; apply C; left; auto). rewrite E. f_equal. apply filter_none.
      intros z Hz. apply not_true_iff_false. rewrite shows_in by (apply C; right; auto). intros W. rewrite Forall_map, Forall_forall in A1. eapply A1; eauto.
    + assert (E : face_contains K y p = false).
      { apply not_true_iff_false. rewrite shows_in by (apply C; left; auto). intros W. rewrite Forall_map, Forall_forall in A1. eapply A1; eauto. }
      rewrite E. apply IH; auto. intros z Hz. apply C; right; auto.
  - intros N. apply filter_none. intros x Hx. apply not_true_iff_false. rewrite shows_in by auto. intros W. apply N. eauto.
Qed.

(** ** A pass *)
Lemma occlusion_pairs cs l : forall A B L C, ofold (fun acc r => occlude_pair K l r acc) cs (A, B) = Ok (L, C) ->
  exists prs, Forall2 (fun c xy => occlude_pair K l c ([], []) = Ok xy) cs prs /\ L = A ++ concat (map fst prs) /\ C = B ++ concat (map snd prs).
Proof.
  induction cs as [|c cs IH]; intros A B L C H; cbn [ofold] in H.
  - apply Ok_inj in H. injection H as <- <-. exists []. cbn. rewrite !app_nil_r. auto.
  - rewrite occlude_pair_acc in H. destruct (occlude_pair K l c ([], [])) as [[X Y]|e|] eqn:E; cbn [bind] in H; try discriminate.
    apply IH in H as (prs & F & -> & ->). exists ((X, Y) :: prs). split; [constructor; auto|]. cbn. rewrite !app_assoc. auto.
Qed.
Lemma filter_facets_In f l : In f (filter_facets K l) -> In f l.
Proof. unfold filter_facets. intros H. apply filter_In in H. tauto. Qed.
Lemma Forall2_In_r {A B} (R : A -> B -> Prop) l m b : Forall2 R l m -> In b m -> exists a, In a l /\ R a b.
Proof. induction 1; cbn; intros H'; [destruct H'|]. destruct H' as [<-|H']; eauto. destruct (IHForall2 H') as (a & A1 & A2). eauto. Qed.
Lemma Forall2_In_l {A B} (R : A -> B -> Prop) l m a : Forall2 R l m -> In a l -> exists b, In b m /\ R a b.
Proof. induction 1; cbn; intros H'; [destruct H'|]. destruct H' as [<-|H']; eauto. destruct (IHForall2 H') as (b & B1 & B2). eauto. Qed.
Lemma In_concat_map {A B} (f : A -> list B) l x : In x (concat (map f l)) <-> exists a, In a l /\ In x (f a).
Proof. rewrite <- flat_map_concat_map. apply in_flat_map. Qed.
Definition fgood (l : list face2) : Prop := forall f, In f l -> good (f_border f).
(** [x] shows a part of one of the facets [l] *)
Definition from (l : list face2) (x : face2) : Prop := good (f_border x) /\ exists f, In f l /\ part_of f x /\ forall p, fcov x p -> fcov f p.
Lemma parts_from f X x l : parts f X -> In x X -> In f l -> from l x.
Proof. intros [F _] Hx Hf. rewrite Forall_forall in F. apply F in Hx as (A & B & C & D). split; auto. exists f; auto. Qed.
Lemma from_trans l m x : (forall f, In f l -> from m f) -> from l x -> from m x.
Proof.
  intros H [G (f & Hf & [P1 P2] & C)]. apply H in Hf as [_ (g & Hg & [Q1 Q2] & D)]. split; auto. exists g. split; auto. split; [split; congruence|]. auto.
Qed.
Lemma from_self l f : good (f_border f) -> In f l -> from l f.
Proof. intros G H. split; auto. exists f. repeat split; auto; apply H0. Qed.
Lemma from_incl l m x : incl l m -> from l x -> from m x.
Proof. intros I [G (f & Hf & R)]. split; auto. exists f; auto. Qed.
Lemma occlusion_from cs l L C : fgood cs -> good (f_border l) -> occlusion K cs l = Ok (L, C) ->
  (forall x, In x L -> from [l] x) /\ (forall x, In x C -> from cs x).
Proof.
  intros Gc Gl H. unfold occlusion in H. apply occlusion_pairs in H as (prs & F & -> & ->). cbn [app]. split; intros x Hx; apply In_concat_map in Hx as ([X Y] & Hp & Hx);
  destruct (Forall2_In_r _ _ _ _ F Hp) as (c & Hc & E); apply filter_facets_In in Hc; apply pair_spec in E as (A & B & _); auto; cbn [fst snd] in Hx.
  - apply (parts_from l X); cbn; auto.
  - apply (parts_from c Y); cbn; auto.
Qed.
Lemma occlude_all_from rs : forall cs res C, fgood cs -> fgood rs -> occlude_all K cs rs = Ok (res, C) ->
  (forall x, In x res -> from rs x) /\ (forall x, In x C -> from cs x).
Proof.
  induction rs as [|r rs IH]; intros cs res C Gc Gr H; cbn [occlude_all] in H.
  - apply Ok_inj in H. injection H as <- <-. split; [intros x []|]. intros x Hx. apply from_self; auto.
  - destruct (occlusion K cs r) as [[L C1]|e|] eqn:E; cbn [bind] in H; try discriminate.
    destruct (occlude_all K C1 rs) as [[res' C']|e|] eqn:E2; cbn [bind] in H; try discriminate. apply Ok_inj in H. injection H as <- <-.
    apply occlusion_from in E as [A B]; auto; [|apply Gr; left; auto].
    apply IH in E2 as [A' B'].
    + split.
      * intros x Hx. apply in_app_or in Hx as [Hx|Hx]; [eapply from_incl; [|apply A; eauto]|eapply from_incl; [|apply A'; eauto]]; intros y Hy; cbn in *; tauto.
      * intros x Hx. eapply from_trans; [|apply B'; eauto]. auto.
    + intros f Hf. apply B in Hf. apply Hf.
    + intros f Hf. apply Gr. right; auto.
Qed.
Lemma add_face_from b f b' : fgood (br_facets b) -> good (f_border f) -> add_face K b f = Ok b' -> forall x, In x (br_facets b') -> from (br_facets b ++ [f]) x.
Proof.
  intros Gb Gf H x Hx. unfold add_face in H. apply bind_Ok in H as (fs & H & E). apply Ok_inj in E. subst b'. cbn [br_facets] in Hx.
  assert (Old : In x (br_facets b ++ [f]) -> from (br_facets b ++ [f]) x).
  { intros I. apply from_self; auto. apply in_app_or in I as [I|[<-|[]]]; auto. }
  destruct (br_facets b) as [|g gs] eqn:Eb; [apply Ok_inj in H; subst; auto|].
  destruct (negb (overlaps K b (f_border f))). { apply Ok_inj in H; subst; auto. }
  apply bind_Ok in H as (u & _ & H). destruct u. { apply Ok_inj in H; subst. apply Old. apply in_or_app; auto. }
  apply bind_Ok in H as ((res & C) & E & H). apply Ok_inj in H. subst fs. rewrite <- Eb in *.
  apply occlude_all_from in E as [A B]; auto; [|intros y [<-|[]]; auto]. apply in_app_or in Hx as [Hx|Hx].
  - eapply from_incl; [|apply A; eauto]. intros y Hy; apply in_or_app; auto.
  - eapply from_incl; [|apply B; eauto]. intros y Hy; apply in_or_app; auto.
Qed.
Lemma add_all_from b' l : forall b, fgood (br_facets b) -> fgood l -> 
  ofold (fun b f => if face_empty f || is_degenerate K f then Ok b else add_face K b f) l b = Ok b' ->
  forall x, In x (br_facets b') -> from (br_facets b ++ filter (fun f => negb (face_empty f || is_degenerate K f)) l) x.
Proof.
  induction l as [|f l IH]; intros b Gb Gl H x Hx; cbn [ofold filter] in *.
  - apply Ok_inj in H. subst. rewrite app_nil_r. apply from_self; auto.
  - apply bind_Ok in H as (b1 & E & H). destruct (face_empty f || is_degenerate K f); cbn [negb].
    + apply Ok_inj in E. subst b1. apply IH; auto. intros y Hy; apply Gl; right; auto.
    + assert (Gf : good (f_border f)) by (apply Gl; left; auto). pose proof (add_face_from _ _ _ Gb Gf E) as A.
      eapply from_trans; [|apply (IH b1); eauto].
      * intros y Hy. apply in_app_or in Hy as [Hy|Hy].
        -- eapply from_incl; [|apply A; auto]. intros z Hz. apply in_app_or in Hz as [Hz|[<-|[]]]; apply in_or_app; cbn; auto.
        -- apply from_self; [|apply in_or_app; right; right; auto]. apply filter_In in Hy as [Hy _]. apply Gl; right; auto.
      * intros y Hy. apply A in Hy. apply Hy.
      * intros y Hy; apply Gl; right; auto.
Qed.
Lemma built_from b l : built K b l -> fgood l -> forall x, In x (br_facets b) -> from l x.
Proof.
  induction 1 as [|f|b l f b' B IH A|b l c m b' B IH C IHc A|b l B IH]; intros G x Hx.
  - destruct Hx.
  - destruct Hx as [<-|[]]. apply from_self; [apply G|]; left; auto.
  - assert (Gl : fgood l) by (intros y Hy; apply G, in_or_app; auto). eapply from_trans; [|eapply add_face_from; eauto].
    + intros y Hy. apply in_app_or in Hy as [Hy|[<-|[]]].
      * eapply from_incl; [|apply IH; auto]. intros z Hz; apply in_or_app; auto.
      * apply from_self; [apply G|]; apply in_or_app; cbn; auto.
    + intros y Hy. apply IH in Hy; auto. apply Hy.
    + apply G. apply in_or_app; cbn; auto.
  - assert (Gl : fgood l) by (intros y Hy; apply G, in_or_app; auto).
    unfold add_brick in A. apply bind_Ok in A as (r & E & A). apply Ok_inj in A. subst b'. cbn [br_facets brick_filter] in Hx. apply filter_facets_In in Hx.
    assert (E' : ofold (fun b f => if face_empty f || is_degenerate K f then Ok b else add_face K b f) (filter (fun f => negb (face_empty f || is_degenerate K f)) (br_facets c)) (brick_filter K b) = Ok r).
    { clear -E. revert E. generalize (brick_filter K b). induction (br_facets c) as [|f fs IH]; intros b0 E; cbn [ofold filter] in *; auto.
      destruct (face_empty f || is_degenerate K f) eqn:D; cbn [negb bind] in *; auto. cbn [ofold]. rewrite D. apply bind_Ok in E as (b1 & E1 & E). rewrite E1. cbn [bind]. auto. }
    eapply from_trans; [|eapply add_all_from; [| |exact E'|exact Hx]].
    + intros y Hy. apply in_app_or in Hy as [Hy|Hy].
      * cbn [br_facets brick_filter] in Hy. apply filter_facets_In in Hy. eapply from_incl; [|apply IH; auto]. intros z Hz; apply in_or_app; auto.
      * apply filter_In in Hy as [Hy _]. apply from_self; [apply G|]; apply in_or_app; right; auto.
    + intros y Hy. cbn [br_facets brick_filter] in Hy. apply filter_facets_In in Hy. apply IH in Hy; auto. apply Hy.
    + intros y Hy. apply G. apply in_or_app; auto.
  - cbn [br_facets brick_filter] in Hx. apply filter_facets_In in Hx. auto.
Qed.


(** ** Coverage *)
Lemma occlusion_cover cs l L C p : fgood cs -> good (f_border l) -> filter_facets K cs = cs -> fclear l p -> (forall c, In c cs -> fclear c p) ->
  occlusion K cs l = Ok (L, C) ->
  (forall x, In x L -> fclear x p) /\ (forall x, In x C -> fclear x p) /\
  (cs <> [] -> fin l p -> exists x, In x (L ++ C) /\ fin x p) /\ (forall c, In c cs -> fin c p -> exists x, In x (L ++ C) /\ fin x p).
Proof.
  intros Gc Gl Ef Cl Cc H. unfold occlusion in H. rewrite Ef in H. apply occlusion_pairs in H as (prs & F & -> & ->). cbn [app].
  assert (P : forall c XY, In c cs -> occlude_pair K l c ([], []) = Ok XY -> In XY prs ->
    fin l p \/ fin c p -> exists x, In x (concat (map fst prs) ++ concat (map snd prs)) /\ fin x p).
  { intros c [X Y] Hc E HXY D. apply pair_spec in E as (_ & _ & At); auto. destruct (At p Cl (Cc c Hc)) as (_ & _ & A & B).
    assert (Y1 : fin c p -> ~ lost true l c p -> exists x, In x (concat (map fst prs) ++ concat (map snd prs)) /\ fin x p).
    { intros H1 H2. destruct B as [_ B]. destruct B as (y & Hy & Iy); auto. exists y. split; auto. apply in_or_app; right. apply In_concat_map. exists (X, Y); auto. }
    assert (X1 : fin l p -> ~ lost false l c p -> exists x, In x (concat (map fst prs) ++ concat (map snd prs)) /\ fin x p).
    { intros H1 H2. destruct A as [_ A]. destruct A as (y & Hy & Iy); auto. exists y. split; auto. apply in_or_app; left. apply In_concat_map. exists (X, Y); auto. }
    destruct (inside_dec (f_border l) p) as [Il|Nl]; destruct (inside_dec (f_border c) p) as [Ic|Nc]; try tauto.
    - destruct (both_lost l c p) as [W|W]; auto.
      + apply X1; auto. intros V. exact (lost_excl l c p Gl (Gc c Hc) W V).
      + apply Y1; auto. intros V. exact (lost_excl l c p Gl (Gc c Hc) V W).
    - apply X1; auto. intros V. apply lost_both in V; auto. tauto.
    - apply Y1; auto. intros V. apply lost_both in V; auto. tauto. }
  split; [|split; [|split]].
  - intros x Hx. apply In_concat_map in Hx as ([X Y] & Hp & Hx). destruct (Forall2_In_r _ _ _ _ F Hp) as (c & Hc & E). apply pair_spec in E as (_ & _ & At); auto.
    destruct (At p Cl (Cc c Hc)) as (A & _). auto.
  - intros x Hx. apply In_concat_map in Hx as ([X Y] & Hp & Hx). destruct (Forall2_In_r _ _ _ _ F Hp) as (c & Hc & E). apply pair_spec in E as (_ & _ & At); auto.
    destruct (At p Cl (Cc c Hc)) as (_ & A & _). auto.
  - intros N Il. destruct cs as [|c cs]; [congruence|]. destruct (Forall2_In_l _ _ _ c F) as (XY & HXY & E); [left; auto|]. apply (P c XY); cbn; auto.
  - intros c Hc Ic. destruct (Forall2_In_l _ _ _ c F) as (XY & HXY & E); auto. apply (P c XY); auto.
Qed.
Definition alive (cs : list face2) (rs : list face2) : Prop :=
  forall k res C, k < length rs -> occlude_all K cs (firstn k rs) = Ok (res, C) -> C <> [] /\ filter_facets K C = C.
Lemma filter_all {A} (q : A -> bool) l : Forall (fun a => q a = true) l -> filter q l = l.
Proof. induction 1 as [|a l H F IH]; cbn; auto. now rewrite H, IH. Qed.
Lemma never_hidden_alive f rs : never_hidden K f rs -> alive [f] rs.
Proof.
  intros H k res C Hk E. destruct (H k res C Hk E) as [A B]. split; auto. apply filter_all. eapply Forall_impl; [|exact B].
  intros c [D N]. cbn. rewrite D, orb_false_r. unfold face_empty. destruct (outer (f_border c)); auto.
Qed.
Lemma alive_tail cs r rs L C : alive cs (r :: rs) -> occlusion K cs r = Ok (L, C) -> alive C rs.
Proof.
  intros H E k res C' Hk E2. apply (H (S k) (L ++ res) C'); [cbn; lia|]. cbn [firstn occlude_all]. rewrite E. cbn [bind]. rewrite E2. reflexivity.
Qed.
Lemma occlude_all_cover p rs : forall cs res C, fgood cs -> fgood rs -> alive cs rs -> (forall c, In c cs -> fclear c p) -> (forall r, In r rs -> fclear r p) ->
  occlude_all K cs rs = Ok (res, C) -> (exists x, In x (rs ++ cs) /\ fin x p) -> exists x, In x (res ++ C) /\ fin x p.
Proof.
  induction rs as [|r rs IH]; intros cs res C Gc Gr Al Cc Cr H Ex; cbn [occlude_all] in H.
  - apply Ok_inj in H. injection H as <- <-. exact Ex.
  - pose proof Al as Al0. destruct (Al0 0 [] cs) as [N Ef]; [cbn; lia|reflexivity|].
    destruct (occlusion K cs r) as [[L C1]|e|] eqn:E; cbn [bind] in H; try discriminate.
    destruct (occlude_all K C1 rs) as [[res' C']|e|] eqn:E2; cbn [bind] in H; try discriminate. apply Ok_inj in H. injection H as <- <-.
    assert (Gr1 : good (f_border r)) by (apply Gr; left; auto).
    pose proof (occlusion_from _ _ _ _ Gc Gr1 E) as [_ Fc]. pose proof (alive_tail _ _ _ _ _ Al E) as Al1.
    apply (occlusion_cover cs r L C1 p) in E as (K1 & K2 & K3 & K4); auto; [|apply Cr; left; auto].
    assert (Go : (exists x, In x L /\ fin x p) \/ (exists x, In x (rs ++ C1) /\ fin x p) -> exists x, In x ((L ++ res') ++ C') /\ fin x p).
    { intros [(x & Hx & Ix)|D].
      - exists x. split; auto. apply in_or_app; left. apply in_or_app; auto.
      - destruct (IH C1 res' C') as (x & Hx & Ix); auto.
        { intros y Hy. apply Fc in Hy. apply Hy. }
        { intros y Hy. apply Gr. right; auto. }
        { intros y Hy. apply Cr. right; auto. }
        exists x. split; auto. apply in_app_or in Hx as [Hx|Hx]; apply in_or_app; [left; apply in_or_app; auto|auto]. }
    assert (Split : (exists x, In x (L ++ C1) /\ fin x p) -> exists x, In x ((L ++ res') ++ C') /\ fin x p).
    { intros (x & Hx & Ix). apply Go. apply in_app_or in Hx as [Hx|Hx]; [left; eauto|right; exists x; split; auto; apply in_or_app; auto]. }
    destruct Ex as (x & Hx & Ix). cbn [app] in Hx. destruct Hx as [<-|Hx]; [apply Split; auto|].
    apply in_app_or in Hx as [Hx|Hx].
    + apply Go. right. exists x. split; auto. apply in_or_app; auto.
    + apply Split. eauto.
Qed.

(** ** The union of the facets *)
Lemma join_all fs : forall s, sgood s -> fgood fs -> let u := fold_left (fun s f => k_join K s (f_border f)) fs s in
  sgood u /\ (forall p, some_covered K (k_pieces K u) p -> some_covered K (k_pieces K s) p \/ exists f, In f fs /\ fcov f p) /\
  (forall p, all_clear K (k_pieces K s) p -> (forall f, In f fs -> fclear f p) -> all_clear K (k_pieces K u) p /\
    (some_inside K (k_pieces K u) p <-> some_inside K (k_pieces K s) p \/ exists f, In f fs /\ fin f p)).
Proof.
  induction fs as [|f fs IH]; intros s S G; cbn [fold_left].
  - split; auto. split; auto. intros p A _. split; auto. split; auto. intros [H|(f & [] & _)]; auto.
  - assert (Gf : good (f_border f)) by (apply G; left; auto). assert (Gs : fgood fs) by (intros y Hy; apply G; right; auto).
    destruct (IH (k_join K s (f_border f))) as (A & B & C); auto. { apply (ok_join _ _ _ OK); auto. }
    split; auto. split.
    + intros p Hp. apply B in Hp as [Hp|(g & Hg & Hp)]; [|right; exists g; cbn; auto].
      apply (in_join _ _ _ OK) in Hp as [Hp|Hp]; auto. right; exists f; cbn; auto.
    + intros p Cs Cf. destruct (at_join _ _ _ OK s (f_border f) p) as [J1 J2]; auto. { apply Cf; left; auto. }
      destruct (C p) as [U1 U2]; auto. { intros g Hg; apply Cf; right; auto. } split; auto. rewrite U2, J2. split.
      * intros [[H|H]|(g & Hg & H)]; auto; right; [exists f|exists g]; cbn; auto.
      * intros [H|(g & [<-|Hg] & H)]; auto. right; eauto.
Qed.
Lemma union_spec b : fgood (br_facets b) -> sgood (brick_union K b) /\
  (forall p, some_covered K (k_pieces K (brick_union K b)) p -> exists f, In f (br_facets b) /\ fcov f p) /\
  (forall p, (forall f, In f (br_facets b) -> fclear f p) -> all_clear K (k_pieces K (brick_union K b)) p /\
    (some_inside K (k_pieces K (brick_union K b)) p <-> exists f, In f (br_facets b) /\ fin f p)).
Proof.
  intros G. destruct (ok_none _ _ _ OK) as [N1 N2]. destruct (join_all (br_facets b) (k_none K) N1 G) as (A & B & C).
  split; auto. split.
  - intros p Hp. apply B in Hp as [(x & Hx & _)|Hp]; auto. rewrite N2 in Hx. destruct Hx.
  - intros p Cf. destruct (C p) as [C1 C2]; auto. { intros x Hx. rewrite N2 in Hx. destruct Hx. } split; auto.
    unfold brick_union. rewrite C2. split; auto. intros [(x & Hx & _)|H]; auto. rewrite N2 in Hx. destruct Hx.
Qed.
Lemma no_overlap b P p : fgood (br_facets b) -> good P -> overlaps K b P = false -> (forall f, In f (br_facets b) -> fclear f p) -> clear K P p ->
  inside K P p -> forall f, In f (br_facets b) -> ~ fin f p.
Proof.
  intros G GP O C CP IP f Hf If. destruct (union_spec b G) as (S & _ & U). destruct (U p C) as [U1 U2].
  unfold overlaps in O. apply negb_false_iff in O. apply (ok_null _ _ _ OK) in O; [|apply (ok_inter _ _ _ OK); auto].
  destruct (at_inter _ _ _ OK (brick_union K b) P p) as [_ [_ A]]; auto. rewrite O in A. destruct A as (q & [] & _). split; auto. apply U2. eauto.
Qed.
Lemma contains_face_cov b f p : fgood (br_facets b) -> good (f_border f) -> contains_face K b f = true -> fcov f p -> exists g, In g (br_facets b) /\ fcov g p.
Proof.
  intros G Gf H If. destruct (union_spec b G) as (S & U & _). unfold contains_face in H.
  pose proof (ok_pieces _ _ _ OK _ (ok_inter _ _ _ OK _ _ S Gf)) as [Gp _].
  pose proof (fun p => in_inter _ _ _ OK (brick_union K b) (f_border f) p S Gf) as I.
  destruct (k_pieces K (k_inter K (brick_union K b) (f_border f))) as [|q [|]]; try discriminate.
  apply U. apply (I p). exists q. split; [left; auto|]. inversion Gp; subst. apply (same_poly _ _ _ OK q (f_border f)); auto.
Qed.
End PROOFS.
