(** * Areas of prints in doubles (C76). *)
From Verif Require Import Base Dbl Geom Decimal Round_proofs Rn_proofs Shadow Handlers Surface Projection Spec_ring Ring_proofs Raster Cli Spec_text Spec_num Spec_arith Arith_proofs Nearest_proofs Dq_proofs Sum_proofs.
From Coq Require Import QArith Qabs Qcabs Lqa Lia.
Open Scope nat_scope.

(** ** Vocabulary *)
Fixpoint total (l : list Qc) : Qc := match l with [] => 0%Qc | a :: l => (a + total l)%Qc end.
Definition on_grid (r : list p2) : Prop := Forall (fun p => exists a b : Z, p = P2 (Geom.qz a) (Geom.qz b)) r.
(** the area of the outer boundary, less the signed areas of the holes *)
Definition net_area (f : face2) : Qc := (signed_area (outer (f_border f)) - total (map signed_area (holes (f_border f))))%Qc.
(** the areas of all its rings, whichever way they turn *)
Definition ring_areas (f : face2) : Qc := (Qcabs (signed_area (outer (f_border f))) + total (map (fun h => Qcabs (signed_area h)) (holes (f_border f))))%Qc.

(** ** Halves of integers *)
Definition half (x : dbl) (n : Z) : Prop := represents x (inject_Z n / 2)%Q.
Lemma half_double n : (Z.abs n < 2 ^ 53)%Z -> exists x, half x n.
Proof.
  assert (forall p, (Zpos p < 2 ^ 53)%Z -> exists m e, dvalid (S754_finite false m e) = true /\ (inject_Z (Zpos p) / 2 == inject_Z (Zpos m) * pw 2 e)%Q) as P.
  { intros p L. assert (Z.log2 (Zpos p) <= 52)%Z as B by (assert (Z.log2 (Zpos p) < 53)%Z by (apply Z.log2_lt_pow2; lia); lia). pose proof (Z.log2_nonneg (Zpos p)).
    exists (Z.to_pos (Zpos p * 2 ^ (52 - Z.log2 (Zpos p)))), (Z.log2 (Zpos p) - 53)%Z.
    assert (0 < 2 ^ (52 - Z.log2 (Zpos p)))%Z as Q by (apply Z.pow_pos_nonneg; lia). split.
    - apply dvalid_intro; [|lia]. rewrite Z2Pos.id by nia. rewrite Z.log2_mul_pow2 by lia. lia.
    - rewrite Z2Pos.id by nia. rewrite inject_Z_mult. fold (qz (2 ^ (52 - Z.log2 (Zpos p)))). rewrite <- pw_Z, <- Qmult_assoc, <- pw_add by lia.
      replace (52 - Z.log2 (Zpos p) + (Z.log2 (Zpos p) - 53))%Z with (-1)%Z by lia. reflexivity. }
  intros L. destruct n as [|p|p].
  - exists dzero. apply (represents_ext _ 0%Q); [reflexivity|apply represents_zero].
  - destruct (P p L) as (m & e & V & E). exists (S754_finite false m e). apply represents_intro; auto. unfold qz. rewrite <- E. unfold sg. ring.
  - destruct (P p L) as (m & e & V & E). exists (S754_finite true m e). apply represents_intro; auto. unfold qz. rewrite <- E. unfold sg. change (Zneg p) with (- Zpos p)%Z. rewrite inject_Z_opp. field.
Qed.
Lemma half_add x y a b : half x a -> half y b -> (Z.abs (a + b) < 2 ^ 53)%Z -> half (dadd x y) (a + b).
Proof.
  intros X Y L. assert (inject_Z a / 2 + inject_Z b / 2 == inject_Z (a + b) / 2)%Q as E by (rewrite inject_Z_plus; field). apply (represents_ext _ _ _ E). apply dadd_exact; auto. destruct (half_double _ L) as [z H]. exists z. eapply represents_ext; [symmetry; exact E|exact H].
Qed.
Lemma half_sub x y a b : half x a -> half y b -> (Z.abs (a - b) < 2 ^ 53)%Z -> half (dsub x y) (a - b).
Proof.
  intros X Y L. assert (inject_Z a / 2 - inject_Z b / 2 == inject_Z (a - b) / 2)%Q as E by (unfold Z.sub; rewrite inject_Z_plus, inject_Z_opp; field). apply (represents_ext _ _ _ E). apply dsub_exact; auto. destruct (half_double _ L) as [z H]. exists z. eapply represents_ext; [symmetry; exact E|exact H].
Qed.
Lemma dq_represents q : (exists x, represents x (this q)) -> represents (dq q) (this q).
Proof.
  intros [x X]. destruct (Qc_eq_dec q 0) as [->|N]; [apply represents_zero|]. destruct (dq_rn64 q N) as (-> & P & E).
  apply (rn64_represents _ _ _ x); auto; [lia|]. rewrite E. unfold sg. destruct (Z.ltb_spec (Qnum (this q)) 0) as [L|L].
  - rewrite Qabs_neg; [ring|]. unfold Qle. cbn. lia.
  - rewrite Qabs_pos; [ring|]. unfold Qle. cbn. lia.
Qed.

(** ** Areas of rings on the grid *)
Definition halfq (n : Z) : Qc := (Geom.qz n / Q2Qc 2)%Qc.
Lemma gz_add a b : Geom.qz (a + b) = (Geom.qz a + Geom.qz b)%Qc.
Proof. apply Qc_is_canon. unfold Geom.qz, Qcplus. rewrite !this_Q2Qc. now rewrite inject_Z_plus. Qed.
Lemma gz_mul a b : Geom.qz (a * b) = (Geom.qz a * Geom.qz b)%Qc.
Proof. apply Qc_is_canon. unfold Geom.qz, Qcmult. rewrite !this_Q2Qc. now rewrite inject_Z_mult. Qed.
Lemma gz_opp a : Geom.qz (- a) = (- Geom.qz a)%Qc.
Proof. apply Qc_is_canon. unfold Geom.qz, Qcopp. rewrite !this_Q2Qc. now rewrite inject_Z_opp. Qed.
Lemma halfq_this n : (this (halfq n) == inject_Z n / 2)%Q.
Proof. unfold halfq, Qcdiv, Qcmult, Qcinv, Geom.qz. rewrite !this_Q2Qc. reflexivity. Qed.
Lemma halfq_add a b : (halfq a + halfq b)%Qc = halfq (a + b).
Proof. unfold halfq, Qcdiv. rewrite gz_add. ring. Qed.
Lemma halfq_opp a : (- halfq a)%Qc = halfq (- a).
Proof. unfold halfq, Qcdiv. rewrite gz_opp. ring. Qed.
Lemma halfq_le a b : (halfq a <= halfq b)%Qc <-> (a <= b)%Z.
Proof.
  unfold Qcle. rewrite !halfq_this. rewrite Zle_Qle. split; intros H.
  - apply (Qmult_le_r _ _ (1 # 2)); [reflexivity|exact H].
  - apply (Qmult_le_r _ _ (1 # 2)) in H; [exact H|reflexivity].
Qed.
Lemma halfq_abs a : Qcabs (halfq a) = halfq (Z.abs a).
Proof.
  apply Qc_is_canon. unfold Qcabs. cbn [this]. rewrite !halfq_this. unfold Qdiv. rewrite Qabs_Qmult. change (Qabs (/ 2)) with (/ 2)%Q. destruct (Z.abs_spec a) as [[L ->]|[L ->]].
  - rewrite Qabs_pos; [reflexivity|]. change 0%Q with (inject_Z 0). now rewrite <- Zle_Qle.
  - rewrite Qabs_neg, inject_Z_opp; [reflexivity|]. change 0%Q with (inject_Z 0). rewrite <- Zle_Qle. lia.
Qed.
Lemma grid_nth r i : on_grid r -> exists a b : Z, nth i r (P2 0 0)%Qc = P2 (Geom.qz a) (Geom.qz b).
Proof.
  intros G. destruct (nth_in_or_default i r (P2 0 0)%Qc) as [H| ->]; [now apply (proj1 (Forall_forall _ _) G)|]. exists 0%Z, 0%Z. f_equal; apply Qc_is_canon; reflexivity.
Qed.
Lemma grid_area r : on_grid r -> exists n, signed_area r = halfq n.
Proof.
  intros G. unfold signed_area, halfq. assert (exists n, fold_right Qcplus 0%Qc (map (fun e => (x2 (fst e) * y2 (snd e) - x2 (snd e) * y2 (fst e))%Qc) (closed_edges r)) = Geom.qz n) as [n ->]; [|now exists n].
  unfold closed_edges. rewrite map_map. induction (seq 0 (length r)) as [|i l [n IH]]; cbn [map fold_right]; [exists 0%Z; apply Qc_is_canon; reflexivity|]. rewrite IH. cbn [fst snd].
  destruct (grid_nth r i G) as (a & b & ->). destruct (grid_nth r ((i + 1) mod length r) G) as (c & d & ->). cbn [x2 y2].
  exists ((a * d + - (c * b)) + n)%Z. rewrite !gz_add, gz_opp, !gz_mul. unfold Qcminus. ring.
Qed.
Lemma half_area r n : signed_area r = halfq n -> (Z.abs n < 2 ^ 53)%Z -> half (dq (ring_area r)) n.
Proof.
  intros E L. rewrite ring_area_signed, E. apply (represents_ext _ (this (halfq n))); [apply halfq_this|]. apply dq_represents. destruct (half_double n L) as [x X]. exists x. eapply represents_ext; [|exact X]. symmetry. apply halfq_this.
Qed.
Lemma half_this x n : half x n -> represents x (this (halfq n)).
Proof. intros H. eapply represents_ext; [|exact H]. symmetry. apply halfq_this. Qed.

Lemma zero_halfq : 0%Qc = halfq 0.
Proof. apply Qc_is_canon. reflexivity. Qed.
Lemma holes_halfs l : Forall on_grid l -> exists ns, map signed_area l = map halfq ns.
Proof. induction 1 as [|r l G _ [ns IH]]; [now exists []|]. destruct (grid_area r G) as [n E]. exists (n :: ns). cbn [map]. now rewrite E, IH. Qed.
Fixpoint zsum (l : list Z) : Z := match l with [] => 0%Z | a :: l => (a + zsum l)%Z end.
Lemma total_halfs ns : total (map halfq ns) = halfq (zsum ns).
Proof. induction ns as [|n ns IH]; cbn [map total zsum]; [apply zero_halfq|]. now rewrite IH, halfq_add. Qed.
Lemma total_abs (l : list (list p2)) ns : map signed_area l = map halfq ns -> total (map (fun h => Qcabs (signed_area h)) l) = halfq (zsum (map Z.abs ns)).
Proof.
  intros E. rewrite <- total_halfs. f_equal. rewrite <- (map_map signed_area Qcabs), E, !map_map. apply map_ext. apply halfq_abs.
Qed.
Lemma zsum_abs ns : (Z.abs (zsum ns) <= zsum (map Z.abs ns))%Z.
Proof. induction ns as [|n ns IH]; cbn [zsum map]; lia. Qed.
Lemma zsum_nonneg ns : (0 <= zsum (map Z.abs ns))%Z.
Proof. induction ns as [|n ns IH]; cbn [zsum map]; lia. Qed.
Lemma half_differences l : forall ns t a, map signed_area l = map halfq ns -> half t a -> (Z.abs a + zsum (map Z.abs ns) < 2 ^ 53)%Z -> half (fold_left (fun t h => dsub t (dq (ring_area h))) l t) (a - zsum ns).
Proof.
  induction l as [|r l IH]; intros [|n ns] t a E T L; cbn [map] in E; try discriminate; cbn [fold_left zsum map] in *.
  - now rewrite Z.sub_0_r.
  - assert (signed_area r = halfq n /\ map signed_area l = map halfq ns) as [E1 E2] by (split; congruence). pose proof (zsum_nonneg ns).
    replace (a - (n + zsum ns))%Z with ((a - n) - zsum ns)%Z by lia. apply IH; auto; [|lia]. apply half_sub; auto; [apply half_area; auto|]; lia.
Qed.
Lemma bound_lt n : (halfq n < Geom.qz (2 ^ 52))%Qc -> (n < 2 ^ 53)%Z.
Proof.
  intros H. apply Qclt_not_le in H. destruct (Z.lt_ge_cases n (2 ^ 53)); auto. exfalso. apply H. replace (Geom.qz (2 ^ 52)) with (halfq (2 ^ 53)) by (apply Qc_is_canon; reflexivity). apply halfq_le. lia.
Qed.
Lemma face_half f : on_grid (outer (f_border f)) -> Forall on_grid (holes (f_border f)) ->
  exists a ns, signed_area (outer (f_border f)) = halfq a /\ map signed_area (holes (f_border f)) = map halfq ns /\ net_area f = halfq (a - zsum ns) /\ ring_areas f = halfq (Z.abs a + zsum (map Z.abs ns)).
Proof.
  intros G H. destruct (grid_area _ G) as [a Ea]. destruct (holes_halfs _ H) as [ns En]. exists a, ns. split; auto. split; auto. unfold net_area, ring_areas. rewrite (total_abs _ _ En), Ea, En, total_halfs, halfq_abs. split; [|apply halfq_add].
  unfold Qcminus. now rewrite halfq_opp, halfq_add.
Qed.

(** ** C76: one correct rounding for the area of each ring and one for each difference; with no
    overflow no other error is made *)
Inductive differences : dbl -> list dbl -> dbl -> Prop :=
| df_nil t : differences t [] t
| df_cons t x l r s : (real_double t -> real_double x -> in_range (dval t - dval x) -> nearest_double (dval t - dval x) r) -> differences r l s -> differences t (x :: l) s.
Lemma dval_opp x : real_double x -> real_double (dopp x) /\ (dval (dopp x) == - dval x)%Q.
Proof.
  intros [V F]. destruct x as [s| | |s m e]; try discriminate.
  - split; [split; reflexivity|]. reflexivity.
  - split; [split; [exact V|reflexivity]|]. unfold dopp, SFopp. rewrite !dval_finite. destruct s; cbn [negb]; ring.
Qed.
Lemma dsub_correct x y : real_double x -> real_double y -> in_range (dval x - dval y) -> nearest_double (dval x - dval y) (dsub x y).
Proof.
  intros X Y I. rewrite dsub_dadd. destruct (dval_opp y Y) as [Y' E]. apply (nearest_ext (dval x + dval (dopp y))); [rewrite E; reflexivity|].
  apply dadd_correct; auto. unfold in_range in *. rewrite E. exact I.
Qed.
Definition rounded_area (r : list p2) (x : dbl) : Prop := (in_range (this (signed_area r)) -> nearest_double (this (signed_area r)) x) /\ (~ in_range (this (signed_area r)) -> exists s, x = S754_infinity s).
Theorem C76_rounded : forall f, exists a l, rounded_area (outer (f_border f)) a /\ Forall2 rounded_area (holes (f_border f)) l /\ differences a l (face_area_d f).
Proof.
  intros f. assert (forall r, rounded_area r (dq (ring_area r))) as A.
  { intros r. unfold rounded_area. rewrite <- ring_area_signed. destruct (dq_correct (ring_area r)) as [P Q]. split; [exact P|]. intros N. eexists. now apply Q. }
  exists (dq (ring_area (outer (f_border f)))), (map (fun h => dq (ring_area h)) (holes (f_border f))). split; [apply A|]. split; [induction (holes (f_border f)); constructor; auto|].
  unfold face_area_d. generalize (dq (ring_area (outer (f_border f)))). induction (holes (f_border f)) as [|h l IH]; intros t; cbn [fold_left map]; [constructor|]. econstructor; [|apply IH]. intros X Y I. now apply dsub_correct.
Qed.
(** prints on a grid of integers: no rounding at all *)
Theorem C76_grid : forall f, on_grid (outer (f_border f)) -> Forall on_grid (holes (f_border f)) -> (ring_areas f < Geom.qz (2 ^ 52))%Qc ->
  represents (face_area_d f) (this (net_area f)).
Proof.
  intros f G H L. destruct (face_half f G H) as (a & ns & Ea & En & N & R). rewrite R in L. apply bound_lt in L. rewrite N. apply half_this. unfold face_area_d. pose proof (zsum_nonneg ns).
  apply half_differences; auto. apply half_area; auto. lia.
Qed.
Lemma face_half_d f : on_grid (outer (f_border f)) -> Forall on_grid (holes (f_border f)) -> (ring_areas f < Geom.qz (2 ^ 52))%Qc ->
  exists n k, net_area f = halfq n /\ ring_areas f = halfq k /\ (Z.abs n <= k)%Z /\ half (face_area_d f) n.
Proof.
  intros G H L. destruct (face_half f G H) as (a & ns & Ea & En & N & R). exists (a - zsum ns)%Z, (Z.abs a + zsum (map Z.abs ns))%Z. split; auto. split; auto. pose proof (zsum_abs ns). split; [lia|].
  rewrite R in L. apply bound_lt in L. unfold face_area_d. pose proof (zsum_nonneg ns). apply half_differences; auto. apply half_area; auto. lia.
Qed.
(** the area of a print is the sum over its facets, in their order; exact on a grid of integers *)
Theorem C76_print : forall b, Forall (fun f => on_grid (outer (f_border f)) /\ Forall on_grid (holes (f_border f))) (br_facets b) -> (total (map ring_areas (br_facets b)) < Geom.qz (2 ^ 52))%Qc ->
  Forall2 (fun f x => represents x (this (net_area f))) (br_facets b) (brick_areas b) /\ represents (brick_area b) (this (total (map net_area (br_facets b)))).
Proof.
  intros b G L. unfold brick_area, brick_areas.
  assert (exists ks, map ring_areas (br_facets b) = map halfq ks /\ Forall (fun k => 0 <= k)%Z ks) as (ks & Ek & Pk).
  { clear L. induction G as [|f l (G1 & G2) _ (ks & E & P)]; [exists []; split; [reflexivity|constructor]|]. destruct (face_half f G1 G2) as (a & ns & _ & _ & _ & R). eexists (_ :: ks). cbn [map]. rewrite R, E. split; [reflexivity|constructor; auto]. pose proof (zsum_nonneg ns). lia. }
  rewrite Ek, total_halfs in L. apply bound_lt in L.
  assert (forall t a, half t a -> (Z.abs a + zsum ks < 2 ^ 53)%Z -> exists n, total (map net_area (br_facets b)) = halfq n /\ half (fold_left dadd (map face_area_d (br_facets b)) t) (a + n) /\ Forall2 (fun f x => represents x (this (net_area f))) (br_facets b) (map face_area_d (br_facets b))) as M.
  { clear L. revert ks Ek Pk. induction G as [|f l (G1 & G2) G IH]; intros [|k ks] Ek Pk t a T L; cbn [map] in Ek; try discriminate; cbn [map total fold_left zsum] in *.
    - exists 0%Z. split; [apply zero_halfq|]. split; [now rewrite Z.add_0_r|constructor].
    - assert (ring_areas f = halfq k /\ map ring_areas l = map halfq ks) as [E1 E2] by (split; congruence). inversion Pk as [|? ? P1 P2]; subst.
      assert (0 <= zsum ks)%Z by (clear -P2; induction P2; cbn [zsum]; lia).
      destruct (face_half_d f G1 G2) as (n & k' & En & Ek' & B & Hn). { rewrite E1. apply Qcnot_le_lt. intros C. replace (Geom.qz (2 ^ 52)) with (halfq (2 ^ 53)) in C by (apply Qc_is_canon; reflexivity). pose proof (proj1 (halfq_le (2 ^ 53) k) C). lia. }
      assert (k' = k) as ->. { rewrite E1 in Ek'. apply Z.le_antisymm; apply halfq_le; rewrite Ek'; apply Qcle_refl. }
      destruct (IH ks E2 P2 (dadd t (face_area_d f)) (a + n)%Z) as (m & Em & Hm & Fm); [apply half_add; auto; lia|lia|].
      exists (n + m)%Z. split; [now rewrite En, Em, halfq_add|]. split; [now rewrite Z.add_assoc|]. constructor; auto. rewrite En. now apply half_this. }
  destruct (M dzero 0%Z) as (n & En & Hn & Fn); [apply (represents_ext _ 0%Q); [reflexivity|apply represents_zero]|lia|]. split; auto. rewrite En. apply half_this. exact Hn.
Qed.
(** a square of side 4 with a square hole of side 2 turned clockwise, as CGAL gives it: 20, and not
    the 12 that it covers *)
Definition gp (a b : Z) : p2 := P2 (Geom.qz a) (Geom.qz b).
Definition frame : face2 := mkFace2 0 (mkPoly [gp 0 0; gp 4 0; gp 4 4; gp 0 4] [[gp 1 1; gp 1 3; gp 3 3; gp 3 1]]) (mkPlane 0 0 1 0)%Qc.
Theorem C76_grid_refuted : on_grid (outer (f_border frame)) /\ Forall on_grid (holes (f_border frame)) /\ (ring_areas frame < Geom.qz (2 ^ 52))%Qc /\
  represents (face_area_d frame) 20 /\ this (signed_area (outer (f_border frame)) + total (map signed_area (holes (f_border frame))))%Qc = 12%Q.
Proof.
  assert (on_grid (outer (f_border frame))) as G by (repeat constructor; do 2 eexists; reflexivity). assert (Forall on_grid (holes (f_border frame))) as H by (repeat constructor; do 2 eexists; reflexivity).
  assert (ring_areas frame < Geom.qz (2 ^ 52))%Qc as L by (vm_compute; reflexivity). split; auto. split; auto. split; auto. split; [|vm_compute; reflexivity].
  apply (represents_ext _ (this (net_area frame))); [vm_compute; reflexivity|]. now apply C76_grid.
Qed.
