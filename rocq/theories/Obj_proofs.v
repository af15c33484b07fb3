(** * Proofs about the OBJ reader and writer (C26-C30). *)
From Verif Require Import Base Dbl Decimal Shadow Spec_shadow Streams Spec_text
  Scan_proofs Lines_proofs Shadow_proofs Off_proofs.

(** ** Order of strings *)
Lemma str_ltb_spec a b : str_ltb a b = true <-> str_lt a b.
Proof.
  revert b. induction a as [|x a IH]; intros [|y b]; cbn [str_ltb].
  - split; [discriminate|inversion 1].
  - split; [constructor|auto].
  - split; [discriminate|inversion 1].
  - destruct (N.ltb_spec (N_of_ascii x) (N_of_ascii y)).
    + split; auto. intros _. apply str_lt_head; auto.
    + destruct (N.ltb_spec (N_of_ascii y) (N_of_ascii x)).
      * split; [discriminate|]. inversion 1; subst; lia.
      * assert (x = y) as ->. { rewrite <- (ascii_N_embedding x), <- (ascii_N_embedding y). f_equal. lia. }
        rewrite IH. split; [apply str_lt_tail|]. inversion 1; subst; auto. lia.
Qed.
Lemma str_lt_trans a b c : str_lt a b -> str_lt b c -> str_lt a c.
Proof.
  intros H. revert c. induction H as [y b|x y a b Hxy|x a b H IH]; intros c Hc; inversion Hc; subst; auto using str_lt_nil, str_lt_head, str_lt_tail.
  apply str_lt_head. lia.
Qed.
Lemma str_lt_irrefl a : ~ str_lt a a.
Proof. induction a as [|x a IH]; intros H; inversion H; subst; auto. lia. Qed.
Lemma str_ltb_total a b : str_ltb a b = false -> str_ltb b a = false -> a = b.
Proof.
  revert b. induction a as [|x a IH]; intros [|y b]; cbn [str_ltb]; try discriminate; auto.
  destruct (N.ltb_spec (N_of_ascii x) (N_of_ascii y)); [discriminate|].
  destruct (N.ltb_spec (N_of_ascii y) (N_of_ascii x)); [discriminate|].
  intros H1 H2. assert (x = y) as ->. { rewrite <- (ascii_N_embedding x), <- (ascii_N_embedding y). f_equal. lia. }
  f_equal. auto.
Qed.

(** ** std::map as an increasing association list *)
Definition above (k : str) (l : list str) : Prop := forall k', In k' l -> str_lt k k'.
Lemma increasing_cons k l : increasing (k :: l) <-> above k l /\ increasing l.
Proof.
  revert k. induction l as [|k' l IH]; intros k.
  - split; [intros _; split; [intros ? []|constructor]|constructor].
  - split.
    + inversion 1 as [| |? ? ? H1 H2]; subst. split; auto. apply IH in H2 as [H3 H4].
      intros x [<-|Hx]; auto. eapply str_lt_trans; eauto.
    + intros [H1 H2]. constructor; auto. apply H1; left; auto.
Qed.
Lemma map_emplace_In {A} k (v : A) l k' v' : increasing (map fst l) ->
  (In (k', v') (map_emplace k v l) <-> In (k', v') l \/ (k' = k /\ v' = v /\ ~ In k (map fst l))).
Proof.
  induction l as [|[a b] l IH]; cbn [map_emplace map fst]; intros Hi.
  - cbn. split.
    + intros [E|[]]. injection E as <- <-. right; auto.
    + intros [[]|(-> & -> & _)]. left; auto.
  - apply increasing_cons in Hi as [Ha Hi]. destruct (str_ltb k a) eqn:E1; [|destruct (str_ltb a k) eqn:E2].
    + apply str_ltb_spec in E1. cbn [In]. split.
      * intros [E|H]; [injection E as <- <-; right|left; auto].
        split; auto. split; auto. intros [->|Hk]; [apply (@str_lt_irrefl _ E1)|]. apply Ha in Hk.
        apply (@str_lt_irrefl _ (@str_lt_trans _ _ _ E1 Hk)).
      * intros [H|(-> & -> & _)]; auto.
    + apply str_ltb_spec in E2. cbn [In]. rewrite IH by auto. split.
      * intros [H|[H|(-> & -> & H)]]; auto. right. split; auto. split; auto. intros [->|H']; auto. apply (@str_lt_irrefl _ E2).
      * intros [[H|H]|(-> & -> & H)]; auto. right. right. split; auto.
    + assert (k = a) as -> by (apply str_ltb_total; auto). cbn [In]. split; [auto|].
      intros [H|(-> & -> & H)]; auto. exfalso. apply H. left; auto.
Qed.
Lemma map_emplace_keys {A} k (v : A) l x : In x (map fst (map_emplace k v l)) <-> x = k \/ In x (map fst l).
Proof.
  induction l as [|[a b] l IH]; cbn [map_emplace map fst In]; [intuition|].
  destruct (str_ltb k a) eqn:E1; [|destruct (str_ltb a k) eqn:E2]; cbn [map fst In].
  - intuition.
  - rewrite IH. intuition.
  - assert (k = a) as -> by (apply str_ltb_total; auto). intuition.
Qed.
Lemma map_emplace_increasing {A} k (v : A) l : increasing (map fst l) -> increasing (map fst (map_emplace k v l)).
Proof.
  induction l as [|[a b] l IH]; cbn [map_emplace map fst]; intros Hi; [constructor|].
  pose proof Hi as Hi'. apply increasing_cons in Hi as [Ha Hi]. destruct (str_ltb k a) eqn:E1; [|destruct (str_ltb a k) eqn:E2]; cbn [map fst]; auto.
  - constructor; auto. apply str_ltb_spec; auto.
  - apply increasing_cons. split; auto. intros x Hx. apply map_emplace_keys in Hx as [->|Hx]; auto. apply str_ltb_spec; auto.
Qed.
Lemma emplace_fold {A} (os : list (str * A)) : forall m, increasing (map fst m) ->
  let r := fold_left (fun m o => map_emplace (fst o) (snd o) m) os m in
  increasing (map fst r) /\
  (forall k v, In (k, v) r <-> In (k, v) m \/
     (~ In k (map fst m) /\ exists pre post, os = pre ++ (k, v) :: post /\ ~ In k (map fst pre))).
Proof.
  induction os as [|[a b] os IH]; intros m Hm; cbn [fold_left fst snd].
  - split; auto. intros k v. split; auto. intros [H|(_ & pre & post & E & _)]; auto. destruct pre; discriminate.
  - destruct (IH (map_emplace a b m)) as [H1 H2]. { apply map_emplace_increasing; auto. }
    split; auto. intros k v. rewrite H2, map_emplace_In, map_emplace_keys by auto. split.
    + intros [[H|(-> & -> & H)]|(H & pre & post & -> & Hp)]; auto.
      * right. split; auto. exists [], os. split; auto.
      * right. split; [tauto|]. exists ((a, b) :: pre), post. split; auto. cbn. intuition.
    + intros [H|(H & pre & post & E & Hp)]; auto. destruct pre as [|[a' b'] pre]; cbn in E; injection E as <- <- E.
      * left. right. auto.
      * right. cbn in Hp. split; [intuition|]. exists pre, post. split; auto.
Qed.
Lemma increasing_NoDup l : increasing l -> NoDup l.
Proof.
  induction l as [|k l IH]; intros H; constructor.
  - apply increasing_cons in H as [H _]. intros Hin. apply (@str_lt_irrefl _ (H _ Hin)).
  - apply IH. apply increasing_cons in H. tauto.
Qed.

(** ** Words and sections *)
Lemma skip_ws_split s : exists ws, s = ws ++ skip_ws s /\ (forall x, In x ws -> is_space x = true) /\
  (skip_ws s = [] \/ exists c r, skip_ws s = c :: r /\ is_space c = false).
Proof.
  induction s as [|c s (ws & E & H1 & H2)]; cbn [skip_ws].
  - exists []. cbn. auto.
  - destruct (is_space c) eqn:Ec.
    + exists (c :: ws). cbn [app]. rewrite <- E. split; auto. split; auto. intros x [<-|Hx]; auto.
    + exists []. cbn. split; auto. split; [intros _ []|]. right. eauto.
Qed.
Lemma take_word_split s : exists rest, s = take_word s ++ rest /\ no_space (take_word s) /\
  (rest = [] \/ exists c r, rest = c :: r /\ is_space c = true).
Proof.
  induction s as [|c s (rest & E & H1 & H2)]; cbn [take_word].
  - exists []. split; auto. split; [intros _ []|auto].
  - destruct (is_space c) eqn:Ec.
    + exists (c :: s). split; auto. split; [intros _ []|]. right. eauto.
    + exists rest. cbn [app]. rewrite <- E. split; auto. split; auto. intros x [<-|Hx]; auto.
Qed.
Lemma take_word_app n rest : no_space n -> (rest = [] \/ exists c r, rest = c :: r /\ is_space c = true) -> take_word (n ++ rest) = n.
Proof.
  intros Hn Hr. induction n as [|c n IH]; cbn [app take_word].
  - destruct Hr as [->|(c & r & -> & Hc)]; cbn; auto. rewrite Hc. auto.
  - rewrite (Hn c) by (left; auto). rewrite IH; auto. intros x Hx. apply Hn. right; auto.
Qed.
Lemma line_word_name l n : l <> [] -> (line_word l n <-> obj_name l = n).
Proof.
  destruct l as [|c s]; [congruence|]. intros _. unfold obj_name. cbn [tl]. split.
  - intros (c' & ws & rest & E & Hws & Hn & Hr). injection E as <- ->.
    rewrite skip_ws_spaces by (apply Forall_forall; auto).
    destruct n as [|a n].
    + destruct Hr as [->|[H _]]; [reflexivity|congruence].
    + rewrite skip_ws_tok by (apply Hn; left; auto). apply take_word_app; auto. destruct Hr as [?|[_ H]]; auto.
  - intros E. destruct (skip_ws_split s) as (ws & E1 & H1 & H2). destruct (take_word_split (skip_ws s)) as (rest & E2 & H3 & H4).
    rewrite E in *. exists c, ws, rest. split; [congruence|]. split; auto. split; auto.
    destruct H4 as [->|H4]; auto. right. split; auto. intros ->. destruct H4 as (x & r & -> & Hx). cbn in E2.
    destruct H2 as [H2|(y & r' & H2 & Hy)]; rewrite E2 in H2; [discriminate|]. injection H2 as -> ->. congruence.
Qed.
Lemma front_starts c l : front_is c l = starts_with c l.
Proof. reflexivity. Qed.
Lemma until_o_split ls : exists post, ls = until_o ls ++ post /\
  (forall l', In l' (until_o ls) -> starts_with ch_letter_o l' = false) /\
  (post = [] \/ exists l' r, post = l' :: r /\ starts_with ch_letter_o l' = true).
Proof.
  induction ls as [|l ls (post & E & H1 & H2)]; cbn [until_o].
  - exists []. split; auto. split; [intros _ []|auto].
  - change (front_is ch_o l) with (starts_with ch_letter_o l). destruct (starts_with ch_letter_o l) eqn:El.
    + exists (l :: ls). split; auto. split; [intros _ []|]. right. eauto.
    + exists post. cbn [app]. rewrite <- E. split; auto. split; auto. intros x [<-|Hx]; auto.
Qed.
Lemma until_o_app body post : (forall l', In l' body -> starts_with ch_letter_o l' = false) ->
  (post = [] \/ exists l' r, post = l' :: r /\ starts_with ch_letter_o l' = true) -> until_o (body ++ post) = body.
Proof.
  intros Hb Hp. induction body as [|l body IH]; cbn [app until_o].
  - destruct Hp as [->|(l & r & -> & Hl)]; auto. cbn [until_o]. change (front_is ch_o l) with (starts_with ch_letter_o l). rewrite Hl. auto.
  - change (front_is ch_o l) with (starts_with ch_letter_o l). rewrite (Hb l) by (left; auto). f_equal. apply IH. intros; apply Hb; right; auto.
Qed.
Lemma starts_nonempty c l : starts_with c l = true -> l <> [].
Proof. destruct l; [discriminate|congruence]. Qed.
Lemma sections_first ls k v :
  (exists pre post, obj_sections ls = pre ++ (k, v) :: post /\ ~ In k (map fst pre)) <-> first_section ls k v.
Proof.
  revert k v. induction ls as [|l ls IH]; intros k v; cbn [obj_sections].
  - split.
    + intros ([|? ?] & post & E & _); discriminate.
    + intros ([|? ?] & x & post & E & _); discriminate.
  - change (front_is ch_o l) with (starts_with ch_letter_o l). destruct (starts_with ch_letter_o l) eqn:El.
    + pose proof (starts_nonempty _ _ El) as Hl. split.
      * intros ([|[a b] pre] & post & E & Hp); cbn [app] in E; injection E as E1 E2 E3; [|subst a b].
        { subst k v. destruct (until_o_split ls) as (post' & E & H1 & H2). exists [], l, post'. cbn [app]. rewrite <- E.
          split; auto. split; auto. split; [apply line_word_name; auto|]. split; [intros _ []|auto]. }
        { cbn [map fst In] in Hp. destruct (IH k v) as [H _]. destruct H as (pre' & l' & post' & E & H1 & H2 & H3 & H4).
          { exists pre, post. split; auto. }
          exists (l :: pre'), l', post'. cbn [app]. rewrite <- E. split; auto. split; auto. split; auto. split; auto.
          intros x [<-|Hx] Hxo; auto. rewrite line_word_name by auto. intuition. }
      * intros ([|l' pre] & x & post & E & H1 & H2 & H3 & H4 & H5); cbn [app] in E; injection E as <- E.
        { exists [], (obj_sections ls). subst ls. rewrite until_o_app by auto. apply line_word_name in H2; auto. rewrite H2. cbn. auto. }
        { destruct (IH k v) as [_ H]. destruct H as (pre' & post' & E' & Hp).
          { exists pre, x, post. split; auto. split; auto. split; auto. split; auto. intros; apply H3; auto. right; auto. }
          exists ((obj_name l, until_o ls) :: pre'), post'. cbn [app map fst In]. rewrite E'. split; auto.
          intros [E1|H']; auto. apply (H3 l (or_introl eq_refl) El). apply line_word_name; auto. }
    + rewrite IH. split.
      * intros (pre & x & post & E & H1 & H2 & H3 & H4). exists (l :: pre), x, post. cbn [app]. rewrite <- E. split; auto. split; auto. split; auto. split; auto.
        intros y [<-|Hy] Hyo; auto. congruence.
      * intros ([|l' pre] & x & post & E & H1 & H2 & H3 & H4 & H5); cbn [app] in E; injection E as <- E; [congruence|].
        exists pre, x, post. split; auto. split; auto. split; auto. split; auto. intros; apply H3; auto. right; auto.
Qed.
Lemma objects_spec ls : increasing (map fst (obj_objects ls)) /\
  (forall k v, In (k, v) (obj_objects ls) <-> first_section ls k v).
Proof.
  unfold obj_objects. destruct (emplace_fold (obj_sections ls) []) as [H1 H2]; [constructor|]. split; auto.
  intros k v. rewrite H2, <- sections_first. cbn. split; [|auto]. intros [[]|[_ H]]; auto.
Qed.
Lemma first_section_unique ls k v v' : first_section ls k v -> first_section ls k v' -> v = v'.
Proof.
  intros H1 H2. destruct (objects_spec ls) as [Hi Ho]. apply Ho in H1, H2. apply increasing_NoDup in Hi.
  clear - Hi H1 H2. induction (obj_objects ls) as [|[a b] l IH]; [destruct H1|]. cbn in Hi. inversion Hi as [|? ? Hn Hd]; subst.
  destruct H1 as [E1|H1], H2 as [E2|H2]; try congruence; auto.
  - injection E1 as -> ->. exfalso. apply Hn. apply (in_map fst) in H2. auto.
  - injection E2 as -> ->. exfalso. apply Hn. apply (in_map fst) in H1. auto.
Qed.

(** ** Leading vertex lines *)
Lemma obj_parse_lines t : obj_parse t = obj_lines t.
Proof. reflexivity. Qed.
Lemma obj_read_points_split vs rest : (forall l, In l vs -> starts_with ch_letter_v l = true) ->
  (rest = [] \/ exists l r, rest = l :: r /\ starts_with ch_letter_v l = false) ->
  obj_read_points (vs ++ rest) = (let* P := omapM (fun l => line2pt (tl l)) vs in Ok (P, rest)).
Proof.
  intros Hv Hr. induction vs as [|l vs IH]; cbn [app omapM].
  - destruct Hr as [->|(l & r & -> & Hl)]; auto. cbn [obj_read_points]. change (front_is ch_v l) with (starts_with ch_letter_v l). rewrite Hl. auto.
  - cbn [obj_read_points]. change (front_is ch_v l) with (starts_with ch_letter_v l). rewrite (Hv l) by (left; auto).
    destruct (line2pt (tl l)); cbn [bind]; auto. rewrite IH by (intros; apply Hv; right; auto).
    match goal with |- context [omapM ?f vs] => destruct (omapM f vs) end; reflexivity.
Qed.
Lemma obj_file_exists t : exists vs rest, obj_file t vs rest.
Proof.
  unfold obj_file. induction (obj_lines t) as [|l ls (vs & rest & E & H1 & H2)].
  - exists [], []. split; [reflexivity|]. split; [intros _ []|left; reflexivity].
  - destruct (starts_with ch_letter_v l) eqn:El.
    + exists (l :: vs), rest. cbn [app]. rewrite E. split; auto. split; auto. intros x [<-|Hx]; auto.
    + exists [], (l :: ls). split; [reflexivity|]. split; [intros _ []|]. right. eauto.
Qed.
Lemma obj_read_file t vs rest : obj_file t vs rest ->
  obj_read t = match obj_lines t with
               | [] => Throw OutOfRange
               | _ => let* P := omapM (fun l => line2pt (tl l)) vs in
                      omapM (obj_object (point_default :: P)) (obj_objects rest)
               end.
Proof.
  intros (E & H1 & H2). unfold obj_read. rewrite obj_parse_lines. destruct (obj_lines t) as [|l ls] eqn:El; auto.
  rewrite E, obj_read_points_split by auto. match goal with |- context [omapM ?f vs] => destruct (omapM f vs) end; reflexivity.
Qed.

(** ** Index compaction *)
Definition number (keys : list N) : imap := combine keys (map N.of_nat (seq 0 (length keys))).
Definition key_add (ks : list N) (i : N) : list N := if in_dec N.eq_dec i ks then ks else ks ++ [i].
Definition keys_add (ks idx : list N) : list N := fold_left key_add idx ks.

Lemma first_uses_add l : first_uses l = keys_add [] l.
Proof.
  induction l as [|i l IH] using rev_ind; auto. unfold keys_add. rewrite fold_left_app. cbn [fold_left].
  fold (keys_add [] l). rewrite <- IH. unfold first_uses. rewrite rev_app_distr. cbn [rev app nodup]. unfold key_add.
  destruct (in_dec N.eq_dec i (rev l)) as [H|H], (in_dec N.eq_dec i (rev (nodup N.eq_dec (rev l)))) as [H'|H']; auto.
  - exfalso. apply H'. rewrite <- in_rev. apply nodup_In. auto.
  - exfalso. apply H. rewrite <- in_rev in H'. apply nodup_In in H'. auto.
Qed.
Lemma NoDup_app_single {A} (l : list A) a : NoDup l -> ~ In a l -> NoDup (l ++ [a]).
Proof.
  intros H Ha. apply (Permutation_NoDup (l := a :: l)); [apply Permutation_cons_append|]. constructor; auto.
Qed.
Lemma key_add_facts ks i : NoDup ks -> NoDup (key_add ks i) /\ In i (key_add ks i) /\ exists ex, key_add ks i = ks ++ ex /\ (forall x, In x ex -> x = i).
Proof.
  intros H. unfold key_add. destruct (in_dec N.eq_dec i ks).
  - split; auto. split; auto. exists []. rewrite app_nil_r. split; auto. intros _ [].
  - split; [|split; [apply in_or_app; right; left; auto|exists [i]; split; auto; intros x [<-|[]]; auto]].
    apply NoDup_app_single; auto.
Qed.
Lemma keys_add_facts idx : forall ks, NoDup ks -> NoDup (keys_add ks idx) /\
  (exists ex, keys_add ks idx = ks ++ ex) /\ (forall x, In x (keys_add ks idx) <-> In x ks \/ In x idx).
Proof.
  unfold keys_add. induction idx as [|i idx IH]; intros ks H; cbn [fold_left].
  - split; auto. split; [exists []; rewrite app_nil_r; auto|]. intros x. cbn. tauto.
  - destruct (key_add_facts ks i H) as (H1 & H2 & ex & E & Hex). destruct (IH (key_add ks i) H1) as (H3 & (ex' & E') & H4).
    split; auto. split; [exists (ex ++ ex'); rewrite E', E, app_assoc; auto|].
    intros x. rewrite H4, E, in_app_iff. cbn [In]. split.
    + intros [[H5|H5]|H5]; auto. right. left. symmetry. auto.
    + intros [H5|[<-|H5]]; auto. left. rewrite E in H2. apply in_app_iff in H2. auto.
Qed.
Lemma find_Some keys : forall a i j,
  imap_find i (combine keys (map N.of_nat (seq a (length keys)))) = Some j ->
  exists k, j = N.of_nat (a + k) /\ nth_error keys k = Some i.
Proof.
  induction keys as [|x keys IH]; intros a i j; cbn [length seq map combine imap_find]; [discriminate|].
  destruct (N.eqb_spec x i) as [->|Hx].
  - intros E. injection E as <-. exists 0%nat. split; [lia|auto].
  - intros E. apply IH in E as (k & -> & Hk). exists (S k). split; [lia|auto].
Qed.
Lemma find_None keys : forall a i,
  imap_find i (combine keys (map N.of_nat (seq a (length keys)))) = None <-> ~ In i keys.
Proof.
  induction keys as [|x keys IH]; intros a i; cbn [length seq map combine imap_find In]; [tauto|].
  destruct (N.eqb_spec x i) as [->|Hx].
  - split; [discriminate|tauto].
  - rewrite IH. tauto.
Qed.
Lemma number_find keys i : In i keys -> exists j, imap_find i (number keys) = Some j /\ nth_error keys (N.to_nat j) = Some i.
Proof.
  intros H. unfold number. destruct (imap_find i _) as [j|] eqn:E.
  - exists j. split; auto. apply find_Some in E as (k & -> & Hk). rewrite Nat.add_0_l, Nat2N.id. auto.
  - apply find_None in E. contradiction.
Qed.
Lemma number_snoc keys i : number (keys ++ [i]) = number keys ++ [(i, nsize keys)].
Proof.
  unfold number. rewrite app_length. cbn [length]. rewrite seq_app, map_app. cbn [seq map Nat.add].
  assert (length keys = length (map N.of_nat (seq 0 (length keys)))) as E by (rewrite map_length, seq_length; auto).
  revert E. generalize (map N.of_nat (seq 0 (length keys))). intros l E. unfold nsize. generalize (N.of_nat (length keys)). intros n.
  revert l E. induction keys as [|x keys IH]; intros [|y l] E; cbn in *; try discriminate; auto. f_equal. apply IH. congruence.
Qed.
Lemma nsize_number keys : nsize (number keys) = nsize keys.
Proof. unfold nsize, number. rewrite combine_length, map_length, seq_length, Nat.min_id. auto. Qed.
Lemma NoDup_bounded (l : list N) n : NoDup l -> (forall x, In x l -> (x < n)%N) -> (nsize l <= n)%N.
Proof.
  intros H Hb. assert (length (map N.to_nat l) <= length (seq 0 (N.to_nat n)))%nat as L.
  { apply NoDup_incl_length.
    - apply FinFun.Injective_map_NoDup; auto. intros a b. apply N2Nat.inj.
    - intros x Hx. apply in_map_iff in Hx as (y & <- & Hy). apply in_seq. specialize (Hb y Hy). lia. }
  rewrite map_length, seq_length in L. unfold nsize. lia.
Qed.
Lemma imap_add_spec idx : forall keys next, NoDup keys -> (forall x, In x keys -> (x < two64)%N) -> (forall x, In x idx -> (x < two64)%N) ->
  (next = nsize keys \/ nsize keys = two64) -> imap_add idx (number keys) next = number (keys_add keys idx).
Proof.
  induction idx as [|i idx IH]; intros keys next Hd Hk Hi Hn; cbn [imap_add]; [reflexivity|].
  unfold keys_add. cbn [fold_left]. fold (keys_add (key_add keys i) idx). unfold key_add.
  assert (forall x, In x idx -> (x < two64)%N) as Hi' by (intros; apply Hi; right; auto).
  destruct (in_dec N.eq_dec i keys) as [H|H].
  - destruct (number_find _ _ H) as (j & -> & _). apply IH; auto.
  - assert (imap_find i (number keys) = None) as -> by (apply find_None; auto).
    assert (NoDup (keys ++ [i])) as Hd' by (apply NoDup_app_single; auto).
    assert (forall x, In x (keys ++ [i]) -> (x < two64)%N) as Hk'.
    { intros x Hx. apply in_app_iff in Hx as [Hx|[<-|[]]]; auto. apply Hi; left; auto. }
    pose proof (NoDup_bounded _ _ Hd' Hk') as B. rewrite nsize_app in B. change (nsize [i]) with 1%N in B.
    destruct Hn as [->|Hn]; [|lia]. rewrite <- number_snoc. apply IH; auto.
    rewrite nsize_app. change (nsize [i]) with 1%N. unfold wrap64.
    destruct (N.eq_dec (nsize keys + 1) two64) as [E|E]; auto. left. apply N.mod_small. lia.
Qed.

(** the indices of a face line *)
Definition facet_idx (l : str) : outcome (list N) :=
  let* idx := omapM size_of_dbl (scan_doubles (tl l)) in
  if (length idx <? 3)%nat then Throw LogicError else Ok idx.
Lemma size_of_dbl_lt d i : size_of_dbl d = Ok i -> (i < two64)%N.
Proof.
  destruct d as [s|s| |s m e]; cbn [size_of_dbl]; try discriminate.
  - intros E. apply Ok_inj in E. subst. reflexivity.
  - destruct (frac m e) as [a b]. destruct s.
    + destruct (a / b =? 0)%Z; [|discriminate]. intros E. apply Ok_inj in E. subst. reflexivity.
    + destruct (Z.ltb_spec (a / b) (Z.of_N two64)); [|discriminate]. intros E. apply Ok_inj in E. subst.
      destruct (a / b)%Z eqn:Ez; cbn [Z.to_N]; try reflexivity. lia.
Qed.
Lemma facet_idx_Ok l idx : facet_idx l = Ok idx <-> index_line l idx /\ (3 <= length idx)%nat.
Proof.
  unfold facet_idx, index_line. rewrite bind_Ok. split.
  - intros (ix & E & H). apply omapM_Ok in E. destruct (Nat.ltb_spec (length ix) 3); [discriminate|]. apply Ok_inj in H. subst. auto.
  - intros [H1 H2]. exists idx. split; [apply omapM_Ok; auto|]. destruct (Nat.ltb_spec (length idx) 3); [lia|auto].
Qed.
Lemma index_line_lt l idx : index_line l idx -> forall x, In x idx -> (x < two64)%N.
Proof. unfold index_line. induction 1 as [|d i ds is H HF IH]; intros x Hx; [destruct Hx|]. destruct Hx as [<-|Hx]; eauto using size_of_dbl_lt. Qed.

Definition at_key (keys : list N) (i j : N) : Prop := nth_error keys (N.to_nat j) = Some i.
Lemma obj_facet_spec l keys : NoDup keys -> (forall x, In x keys -> (x < two64)%N) ->
  match facet_idx l with
  | Ok idx => exists f, obj_facet (tl l) (number keys) = Ok (f, number (keys_add keys idx)) /\
                        Forall2 (at_key (keys_add keys idx)) idx f
  | Throw e => obj_facet (tl l) (number keys) = Throw e
  | UB => obj_facet (tl l) (number keys) = UB
  end.
Proof.
  intros Hd Hk. unfold facet_idx, obj_facet. destruct (omapM size_of_dbl (scan_doubles (tl l))) as [idx| |] eqn:E; cbn [bind]; auto.
  assert (forall x, In x idx -> (x < two64)%N) as Hi. { apply index_line_lt with l. apply omapM_Ok. auto. }
  rewrite nsize_number, imap_add_spec by auto. unfold face_make. rewrite map_length.
  destruct (length idx <? 3)%nat; cbn [bind]; auto. eexists. split; [reflexivity|].
  assert (forall x, In x idx -> In x (keys_add keys idx)) as Hin. { intros x Hx. apply keys_add_facts; auto. }
  revert Hin. generalize (keys_add keys idx). intros K. clear. induction idx as [|i idx IH]; intros Hin; cbn [map]; constructor.
  - destruct (number_find K i) as (j & -> & Hj); auto. apply Hin; left; auto.
  - apply IH. intros; apply Hin; right; auto.
Qed.
Lemma at_key_app keys ex i j : at_key keys i j -> at_key (keys ++ ex) i j.
Proof. unfold at_key. intros H. rewrite nth_error_app1; auto. apply nth_error_Some. congruence. Qed.
Lemma Forall2_imp {A B} (R S : A -> B -> Prop) l1 l2 : (forall a b, R a b -> S a b) -> Forall2 R l1 l2 -> Forall2 S l1 l2.
Proof. intros H. induction 1; constructor; auto. Qed.
Lemma obj_facets_spec ls : forall keys, NoDup keys -> (forall x, In x keys -> (x < two64)%N) ->
  match omapM facet_idx ls with
  | Ok idxs => exists fs, obj_facets ls (number keys) = Ok (fs, number (keys_add keys (concat idxs))) /\
                          Forall2 (Forall2 (at_key (keys_add keys (concat idxs)))) idxs fs
  | Throw e => obj_facets ls (number keys) = Throw e
  | UB => obj_facets ls (number keys) = UB
  end.
Proof.
  induction ls as [|l ls IH]; intros keys Hd Hk; cbn [omapM obj_facets].
  - exists []. split; auto.
  - pose proof (obj_facet_spec l keys Hd Hk) as Hf. destruct (facet_idx l) as [idx| |] eqn:E; cbn [bind].
    2,3: rewrite Hf; reflexivity.
    destruct Hf as (f & -> & Hf). cbn [bind]. destruct (keys_add_facts idx keys Hd) as (Hd' & _ & Hin).
    assert (forall x, In x (keys_add keys idx) -> (x < two64)%N) as Hk'.
    { intros x Hx. apply Hin in Hx as [Hx|Hx]; auto. apply facet_idx_Ok in E as [E _]. eapply index_line_lt; eauto. }
    specialize (IH (keys_add keys idx) Hd' Hk'). destruct (omapM facet_idx ls) as [idxs| |]; cbn [bind].
    2,3: rewrite IH; reflexivity.
    destruct IH as (fs & -> & Hfs). cbn [bind concat]. unfold keys_add in *. rewrite fold_left_app. exists (f :: fs). split; auto.
    constructor; auto. destruct (keys_add_facts (concat idxs) (fold_left key_add idx keys) Hd') as (_ & (ex & Ex) & _).
    unfold keys_add in Ex. rewrite Ex. eapply Forall2_imp; [|exact Hf]. intros; apply at_key_app; auto.
Qed.

(** select *)
Lemma vset_mid {A} (done : list A) a x l : vset (done ++ x :: l) (nsize done) a = Ok (done ++ a :: l).
Proof.
  unfold vset, nsize. rewrite app_length. cbn [length]. destruct (N.ltb_spec (N.of_nat (length done)) (N.of_nat (length done + S (length l)))); [|lia].
  rewrite Nat2N.id. rewrite firstn_app_len by auto. f_equal. f_equal. f_equal.
  change (S (length done)) with (1 + length done)%nat. rewrite Nat.add_comm. rewrite skipn_app, skipn_all2 by lia.
  replace (length done + 1 - length done)%nat with 1%nat by lia. reflexivity.
Qed.
Lemma select_spec P keys : forall done,
  (forall i, In i keys -> (i < nsize P)%N) ->
  ofold (fun sel on => let* p := vidxN P (fst on) in vset sel (snd on) p)
        (combine keys (map N.of_nat (seq (length done) (length keys)))) (done ++ repeat point_default (length keys)) =
  Ok (done ++ map (pt P) keys).
Proof.
  induction keys as [|i keys IH]; intros done H; cbn [length seq map combine ofold repeat]; auto.
  cbn [fst snd]. destruct (nth_error P (N.to_nat i)) as [p|] eqn:Ep.
  - rewrite (proj2 (vidxN_Ok P i p) Ep). cbn [bind]. change (N.of_nat (length done)) with (nsize done). rewrite vset_mid. cbn [bind].
    specialize (IH (done ++ [p])). rewrite app_length in IH. cbn [length] in IH. rewrite Nat.add_1_r, <- !app_assoc in IH. cbn [app] in IH.
    rewrite IH by (intros; apply H; right; auto). unfold pt at 2. rewrite (nth_error_nth _ _ _ Ep). reflexivity.
  - apply nth_error_None in Ep. specialize (H i (or_introl eq_refl)). unfold nsize in H. lia.
Qed.
Lemma select_UB P keys : forall done, (exists i, In i keys /\ (nsize P <= i)%N) ->
  ofold (fun sel on => let* p := vidxN P (fst on) in vset sel (snd on) p)
        (combine keys (map N.of_nat (seq (length done) (length keys)))) (done ++ repeat point_default (length keys)) = UB.
Proof.
  induction keys as [|i keys IH]; intros done (x & Hx & Hb); [destruct Hx|]. cbn [length seq map combine ofold repeat fst snd].
  destruct (nth_error P (N.to_nat i)) as [p|] eqn:Ep.
  - rewrite (proj2 (vidxN_Ok P i p) Ep). cbn [bind]. change (N.of_nat (length done)) with (nsize done). rewrite vset_mid. cbn [bind].
    specialize (IH (done ++ [p])). rewrite app_length in IH. cbn [length] in IH. rewrite Nat.add_1_r, <- !app_assoc in IH. cbn [app] in IH.
    apply IH. exists x. split; auto. destruct Hx as [<-|Hx]; auto. exfalso.
    assert (nth_error P (N.to_nat i) <> None) as Hn by congruence. apply nth_error_Some in Hn. unfold nsize in Hb. lia.
  - apply nth_error_None in Ep. rewrite vidxN_ge by (unfold nsize; lia). reflexivity.
Qed.
Lemma obj_select_spec P keys : (forall i, In i keys -> (i < nsize P)%N) -> obj_select P (number keys) = Ok (map (pt P) keys).
Proof.
  intros H. unfold obj_select. assert (length (number keys) = length keys) as E by (pose proof (nsize_number keys); unfold nsize in *; lia).
  rewrite E. apply (select_spec P keys []); auto.
Qed.
Lemma obj_select_UB P keys : (exists i, In i keys /\ (nsize P <= i)%N) -> obj_select P (number keys) = UB.
Proof.
  intros H. unfold obj_select. assert (length (number keys) = length keys) as E by (pose proof (nsize_number keys); unfold nsize in *; lia).
  rewrite E. apply (select_UB P keys []); auto.
Qed.

Lemma polys_keys P keys idxs fs : Forall2 (Forall2 (at_key keys)) idxs fs -> (forall i, In i keys -> (i < nsize P)%N) ->
  map (map (fun i => nth_error (map (pt P) keys) (N.to_nat i))) fs = map (map (fun i => nth_error P (N.to_nat i))) idxs.
Proof.
  intros H Hk. induction H as [|idx f idxs fs H HF IH]; cbn [map]; auto. f_equal; auto. clear IH HF.
  induction H as [|i j idx f H HF IH]; cbn [map]; auto. f_equal; auto. unfold at_key in H.
  rewrite (map_nth_error (pt P) _ _ H). unfold pt. symmetry. apply nth_error_nth'. specialize (Hk i (nth_error_In _ _ H)). unfold nsize in Hk. lia.
Qed.
(** one object *)
Lemma obj_object_spec P n body :
  match omapM facet_idx body with
  | Ok idxs =>
    if forallb (fun i => i <? nsize P)%N (concat idxs) then
      exists fs, obj_object P (n, body) = Ok (mesh_make n (map (pt P) (first_uses (concat idxs))) fs) /\
                 Forall2 (Forall2 (at_key (first_uses (concat idxs)))) idxs fs
    else obj_object P (n, body) = UB
  | Throw e => obj_object P (n, body) = Throw e
  | UB => obj_object P (n, body) = UB
  end.
Proof.
  unfold obj_object. cbn [fst snd]. pose proof (obj_facets_spec body [] (NoDup_nil _) (fun x (F : In x []) => match F with end)) as H.
  change (number []) with (@nil (N * N)) in H. destruct (omapM facet_idx body) as [idxs| |]; [|rewrite H; reflexivity|rewrite H; reflexivity].
  destruct H as (fs & -> & H). cbn [bind]. rewrite <- first_uses_add in *.
  assert (forall x, In x (first_uses (concat idxs)) <-> In x (concat idxs)) as Hin.
  { intros x. rewrite first_uses_add. rewrite (proj2 (proj2 (keys_add_facts (concat idxs) [] (NoDup_nil _)))). cbn. tauto. }
  destruct (forallb _ (concat idxs)) eqn:E.
  - rewrite forallb_forall in E. rewrite obj_select_spec by (intros i Hi; apply Hin in Hi; apply E in Hi; lia). cbn [bind]. eauto.
  - rewrite obj_select_UB; [reflexivity|]. apply not_true_iff_false in E. rewrite forallb_forall in E.
    destruct (Exists_dec (fun i => (nsize P <= i)%N) (concat idxs)) as [H'|H'].
    { intros x. destruct (nsize P <=? x)%N eqn:El; [left|right]; lia. }
    + apply Exists_exists in H' as (i & Hi & Hb). exists i. split; auto. apply Hin; auto.
    + exfalso. apply E. intros x Hx. destruct (N.ltb_spec x (nsize P)); auto. exfalso. apply H'. apply Exists_exists. eauto.
Qed.

(** ** C27 - C29 *)
Lemma obj_object_name P o m : obj_object P o = Ok m -> m_name m = fst o.
Proof.
  destruct o as [n b]. unfold obj_object. cbn [fst snd]. intros E. apply bind_Ok in E as ([F k] & _ & E).
  apply bind_Ok in E as (Q & _ & E). apply Ok_inj in E. subst. reflexivity.
Qed.
Lemma obj_objects_names P os rs : omapM (obj_object P) os = Ok rs -> map m_name rs = map fst os.
Proof.
  intros E. apply omapM_Ok in E. induction E as [|o m os rs H HF IH]; cbn [map]; auto. rewrite IH, (obj_object_name _ _ _ H). auto.
Qed.
Lemma C27_proof t rs : obj_read t = Ok rs -> exists vs rest, obj_file t vs rest /\
  increasing (map m_name rs) /\ (forall n, In n (map m_name rs) <-> exists body, first_section rest n body).
Proof.
  intros E. destruct (obj_file_exists t) as (vs & rest & Hf). exists vs, rest. split; auto. rewrite (obj_read_file _ _ _ Hf) in E.
  destruct (obj_lines t) as [|l ls]; [discriminate|]. apply bind_Ok in E as (P & _ & E). apply obj_objects_names in E.
  destruct (objects_spec rest) as [H1 H2]. rewrite E. split; auto. intros n. split.
  - intros H. apply in_map_iff in H as ([k v] & <- & H). exists v. apply H2. auto.
  - intros [b H]. apply H2 in H. apply (in_map fst) in H. auto.
Qed.
Lemma line2pt_cases l : match line2pt (tl l) with
  | Ok p => vertex_line l p
  | UB => numbers l = 4%nat
  | Throw e => e = IosFailure /\ numbers l <> 3%nat /\ numbers l <> 4%nat
  end.
Proof.
  unfold line2pt, str2pt, vertex_line, numbers. destruct (scan_doubles (tl l)) as [|a [|b [|c [|d [|e r]]]]]; cbn; repeat split; auto; lia.
Qed.
Lemma line2pt_Ok l p : line2pt (tl l) = Ok p <-> vertex_line l p.
Proof.
  pose proof (line2pt_cases l) as H. split.
  - intros E. rewrite E in H. auto.
  - intros V. unfold line2pt, str2pt. rewrite V. destruct p; reflexivity.
Qed.
Lemma vertex_lines vs P : omapM (fun l => line2pt (tl l)) vs = Ok P <-> Forall2 vertex_line vs P.
Proof.
  rewrite omapM_Ok. split; apply Forall2_imp; intros; apply line2pt_Ok; auto.
Qed.
Lemma facet_idxs body idxs : omapM facet_idx body = Ok idxs <-> Forall2 good_index_line body idxs.
Proof. rewrite omapM_Ok. split; apply Forall2_imp; intros; apply facet_idx_Ok; auto. Qed.

Lemma object_result P n body idxs : Forall2 good_index_line body idxs -> (forall i, In i (concat idxs) -> (i < nsize P)%N) ->
  exists r, obj_object P (n, body) = Ok r /\ m_name r = n /\ m_points r = map (pt P) (first_uses (concat idxs)) /\
    polygons r = map (map (fun i => nth_error P (N.to_nat i))) idxs /\ (mesh_wf r /\ tight_box (m_points r) (m_bbox r)) /\
    length (m_faces r) = length body.
Proof.
  intros H Hi. pose proof (obj_object_spec P n body) as S. rewrite (proj2 (facet_idxs _ _) H) in S.
  replace (forallb _ _) with true in S. 2:{ symmetry. apply forallb_forall. intros x Hx. apply Hi in Hx. lia. }
  destruct S as (fs & E & S). eexists. split; [exact E|]. cbn [m_name m_points m_faces mesh_make]. split; auto. split; auto.
  assert (forall i, In i (first_uses (concat idxs)) -> (i < nsize P)%N) as Hu.
  { intros i Hu. apply Hi. rewrite first_uses_add in Hu. apply keys_add_facts in Hu as [[]|Hu]; auto. constructor. }
  split; [unfold polygons; cbn [m_points m_faces mesh_make]; apply polys_keys; auto|]. split; [split; [|cbn [m_points m_bbox mesh_make]; apply tight_compute]|].
  - intros f Hf. cbn [m_faces m_points mesh_make] in *. rewrite nsize_map. clear - S Hf H. revert S. generalize (first_uses (concat idxs)). intros K S. revert body H.
    induction S as [|idx g idxs fs Hg HS IH]; intros body H; [destruct Hf|].
    inversion H as [|l ? body' ? Hl Hb]; subst. destruct Hf as [<-|Hf]; [|eapply IH; eauto].
    split; [rewrite <- (Forall2_len Hg); apply Hl|].
    intros i Hin. clear - Hg Hin. induction Hg as [|a b idx g Hab Hg IH]; [destruct Hin|]. destruct Hin as [<-|Hin]; auto. unfold at_key in Hab.
    assert (nth_error K (N.to_nat b) <> None) as Hn by congruence. apply nth_error_Some in Hn. unfold nsize. lia.
  - etransitivity; [symmetry; exact (Forall2_len S)|]. symmetry. exact (Forall2_len H).
Qed.
Lemma object_Ok_fine P n body r : obj_object P (n, body) = Ok r ->
  exists idxs, Forall2 good_index_line body idxs /\ forall i, In i (concat idxs) -> (i < nsize P)%N.
Proof.
  intros E. pose proof (obj_object_spec P n body) as S. destruct (omapM facet_idx body) as [idxs| |] eqn:Ei; try congruence.
  exists idxs. split; [apply facet_idxs; auto|]. destruct (forallb _ _) eqn:Ef; [|congruence].
  rewrite forallb_forall in Ef. intros i Hi. apply Ef in Hi. lia.
Qed.
Lemma In_Forall2_l {A B} (R : A -> B -> Prop) l1 l2 b : Forall2 R l1 l2 -> In b l2 -> exists a, In a l1 /\ R a b.
Proof. induction 1 as [|x y l1 l2 H HF IH]; intros Hin; [destruct Hin|]. destruct Hin as [<-|Hin]; [exists x; split; [left|]; auto|]. destruct (IH Hin) as (a & Ha & Hr). exists a. split; [right|]; auto. Qed.
Lemma C28_proof t rs vs rest r body : obj_read t = Ok rs -> obj_file t vs rest -> In r rs -> first_section rest (m_name r) body ->
  exists P idxs, Forall2 vertex_line vs P /\ Forall2 good_index_line body idxs /\
    (forall i, In i (concat idxs) -> (i <= nsize P)%N) /\
    map Some (m_points r) = map (fun i => nth_error (point_default :: P) (N.to_nat i)) (first_uses (concat idxs)) /\
    polygons r = map (map (fun i => nth_error (point_default :: P) (N.to_nat i))) idxs /\ mesh_wf r /\ tight_box (m_points r) (m_bbox r).
Proof.
  intros E Hf Hr Hs. rewrite (obj_read_file _ _ _ Hf) in E. destruct (obj_lines t) as [|l ls]; [discriminate|].
  apply bind_Ok in E as (P & EP & E). apply vertex_lines in EP. apply omapM_Ok in E.
  destruct (In_Forall2_l _ _ _ _ E Hr) as ([n b] & Hin & Ho). pose proof (obj_object_name _ _ _ Ho) as En. cbn [fst] in En. subst n.
  apply objects_spec in Hin. pose proof (first_section_unique _ _ _ _ Hs Hin) as ->.
  destruct (object_Ok_fine _ _ _ _ Ho) as (idxs & H1 & H2). exists P, idxs. split; auto. split; auto.
  split; [intros i Hi; apply H2 in Hi; unfold nsize in *; cbn [length] in Hi; lia|].
  destruct (object_result (point_default :: P) (m_name r) b idxs H1 H2) as (r' & Er & _ & H3 & H4 & H5 & _). rewrite Ho in Er. apply Ok_inj in Er. subst r'.
  split; auto. rewrite H3, map_map. apply map_ext_in. intros i Hi. unfold pt. symmetry. apply nth_error_nth'.
  assert (i < nsize (point_default :: P))%N as Hb. { apply H2. rewrite first_uses_add in Hi. apply keys_add_facts in Hi as [[]|Hi]; auto. constructor. }
  unfold nsize in Hb. lia.
Qed.

(** uniqueness of the ordered list of objects *)
Lemma increasing_unique {A} (l1 l2 : list (str * A)) : increasing (map fst l1) -> increasing (map fst l2) ->
  (forall k v, In (k, v) l1 <-> In (k, v) l2) -> l1 = l2.
Proof.
  revert l2. induction l1 as [|[k v] l1 IH]; intros [|[k' v'] l2] H1 H2 H; auto.
  - exfalso. apply (H k' v'). left; auto.
  - exfalso. apply (H k v). left; auto.
  - cbn [map fst] in *. apply increasing_cons in H1 as [A1 H1], H2 as [A2 H2].
    assert ((k, v) = (k', v')) as E.
    { destruct (proj1 (H k v) (or_introl eq_refl)) as [E|E]; [congruence|].
      destruct (proj2 (H k' v') (or_introl eq_refl)) as [E'|E']; [congruence|].
      apply (in_map fst) in E, E'. apply A2 in E. apply A1 in E'. exfalso. apply (@str_lt_irrefl _ (@str_lt_trans _ _ _ E E')). }
    injection E as -> ->. f_equal. apply IH; auto. intros a b. specialize (H a b). cbn [In] in H. split; intros Hin.
    + destruct (proj1 H (or_intror Hin)) as [E|E]; auto. injection E as -> ->. apply (in_map fst) in Hin. apply A1 in Hin. exfalso. apply (@str_lt_irrefl _ Hin).
    + destruct (proj2 H (or_intror Hin)) as [E|E]; auto. injection E as -> ->. apply (in_map fst) in Hin. apply A2 in Hin. exfalso. apply (@str_lt_irrefl _ Hin).
Qed.
Lemma objects_of_unique rest objs : objects_of rest objs <-> objs = obj_objects rest.
Proof.
  destruct (objects_spec rest) as [H1 H2]. split.
  - intros [H3 H4]. apply increasing_unique; auto. intros k v. rewrite H2, H4. tauto.
  - intros ->. split; auto.
Qed.
Lemma obj_file_unique t vs rest vs' rest' : obj_file t vs rest -> obj_file t vs' rest' -> vs = vs' /\ rest = rest'.
Proof.
  intros (E & H1 & H2) (E' & H1' & H2'). rewrite E in E'. clear E t. revert vs' E' H1'. induction vs as [|l vs IH]; intros [|l' vs'] E H1'; cbn [app] in E; auto.
  - subst rest. exfalso. destruct H2 as [H2|(x & r & Ex & Hx)]; [discriminate|]. injection Ex as E1 _. subst x.
    rewrite (H1' l') in Hx by (left; auto). discriminate.
  - exfalso. destruct H2' as [->|(x & r & Ex & Hx)]; [discriminate|]. subst rest'. injection E as -> E.
    rewrite (H1 x) in Hx by (left; auto). discriminate.
  - injection E as -> E. destruct (IH ltac:(intros; apply H1; right; auto) _ E ltac:(intros; apply H1'; right; auto)) as [-> ->]. auto.
Qed.
Lemma facet_idx_UB l : facet_idx l = UB <-> ~ exists idx, index_line l idx.
Proof.
  unfold facet_idx, index_line. destruct (omapM size_of_dbl (scan_doubles (tl l))) as [idx|e|] eqn:E; cbn [bind].
  - split.
    + destruct (length idx <? 3)%nat; discriminate.
    + intros H. exfalso. apply H. exists idx. apply omapM_Ok. auto.
  - exfalso. clear - E. induction (scan_doubles (tl l)) as [|d ds IH]; [discriminate|]. cbn [omapM] in E.
    destruct (size_of_dbl d) eqn:Ed; cbn [bind] in E; try discriminate.
    + destruct (omapM size_of_dbl ds); cbn [bind] in E; try discriminate. apply IH. congruence.
    + destruct d as [s|s| |s m x]; cbn [size_of_dbl] in Ed; try discriminate. destruct (frac m x), s; [destruct (_ =? _)%Z|destruct (_ <? _)%Z]; discriminate.
  - split; auto. intros _ [idx H]. apply omapM_Ok in H. congruence.
Qed.
Lemma obj_object_UB P n body : obj_object (point_default :: P) (n, body) = UB <-> object_undefined (length P) body.
Proof.
  pose proof (obj_object_spec (point_default :: P) n body) as S. unfold object_undefined. split.
  - intros E. destruct (omapM facet_idx body) as [idxs| |] eqn:Ei.
    + right. exists idxs. split; [apply facet_idxs; auto|]. destruct (forallb _ _) eqn:Ef; [destruct S as (? & S & _); congruence|].
      apply not_true_iff_false in Ef. rewrite forallb_forall in Ef.
      destruct (Exists_dec (fun i => (N.of_nat (length P) < i)%N) (concat idxs)) as [H|H].
      { intros x. destruct (N.of_nat (length P) <? x)%N eqn:El; [left|right]; lia. }
      * apply Exists_exists in H. auto.
      * exfalso. apply Ef. intros x Hx. destruct (N.ltb_spec x (nsize (point_default :: P))) as [?|Hb]; auto. exfalso. apply H. apply Exists_exists. exists x. split; auto.
        unfold nsize in Hb. cbn [length] in Hb. lia.
    + congruence.
    + left. apply omapM_UB_iff in Ei as (pre & l & post & -> & Hl & Hp). exists pre, l, post. split; auto. split; [|apply facet_idx_UB; auto].
      intros l' Hl'. destruct (Hp l' Hl') as [c Hc]. exists c. apply facet_idx_Ok; auto.
  - intros [(pre & l & post & -> & Hp & Hl)|(idxs & H & i & Hi & Hb)].
    + replace (omapM facet_idx (pre ++ l :: post)) with (@UB (list (list N))) in S; auto. symmetry. apply omapM_UB_iff.
      exists pre, l, post. split; auto. split; [apply facet_idx_UB; auto|]. intros b Hbp. destruct (Hp b Hbp) as [c Hc]. exists c. apply facet_idx_Ok; auto.
    + rewrite (proj2 (facet_idxs _ _) H) in S. replace (forallb _ _) with false in S; auto. symmetry. apply not_true_iff_false. intros Hf.
      rewrite forallb_forall in Hf. apply Hf in Hi. unfold nsize in Hi. cbn [length] in Hi. lia.
Qed.
Lemma obj_object_fine P n body : (exists r, obj_object (point_default :: P) (n, body) = Ok r) <-> object_fine (length P) body.
Proof.
  split.
  - intros [r E]. apply object_Ok_fine in E as (idxs & H1 & H2). exists idxs. split; auto. intros i Hi. apply H2 in Hi. unfold nsize in Hi. cbn [length] in Hi. lia.
  - intros (idxs & H1 & H2). destruct (object_result (point_default :: P) n body idxs H1) as (r & E & _); eauto.
    intros i Hi. apply H2 in Hi. unfold nsize. cbn [length]. lia.
Qed.
Lemma numbers3 l : numbers l = 3%nat <-> exists p, line2pt (tl l) = Ok p.
Proof.
  unfold numbers, line2pt, str2pt. destruct (scan_doubles (tl l)) as [|a [|b [|c [|d r]]]]; cbn; split; try lia; eauto; intros [p H]; try discriminate.
  destruct r; discriminate.
Qed.
Lemma numbers4 l : numbers l = 4%nat <-> line2pt (tl l) = UB.
Proof.
  unfold numbers, line2pt, str2pt. destruct (scan_doubles (tl l)) as [|a [|b [|c [|d [|e r]]]]]; cbn; split; try lia; try discriminate; auto.
Qed.
Lemma C29_UB_proof t vs rest objs : obj_file t vs rest -> objects_of rest objs ->
  (obj_read t = UB <->
   (exists pre l post, vs = pre ++ l :: post /\ numbers l = 4%nat /\ forall l', In l' pre -> numbers l' = 3%nat) \/
   ((forall l, In l vs -> numbers l = 3%nat) /\
    exists pre n body post, objs = pre ++ (n, body) :: post /\ object_undefined (length vs) body /\
      forall n' b', In (n', b') pre -> object_fine (length vs) b')).
Proof.
  intros Hf Ho. apply objects_of_unique in Ho. subst objs. rewrite (obj_read_file _ _ _ Hf).
  destruct (obj_lines t) as [|l0 ls] eqn:El.
  { destruct Hf as (E & _). rewrite El in E. destruct vs; [|discriminate]. destruct rest; [|discriminate]. split; [discriminate|].
    intros [([|? ?] & ? & ? & ? & _)|(_ & [|? ?] & ? & ? & ? & ? & _)]; discriminate. }
  clear El Hf. destruct (omapM (fun l => line2pt (tl l)) vs) as [P|e|] eqn:E; cbn [bind].
  - assert (forall l, In l vs -> numbers l = 3%nat) as H3.
    { apply omapM_Ok in E. clear - E. induction E as [|? ? ? ? ? ? IHE]; intros k Hk; [destruct Hk|]. destruct Hk as [<-|Hk]; auto. apply numbers3. eauto. }
    apply vertex_lines, Forall2_len in E. rewrite E, omapM_UB_iff. split.
    + intros (pre & [n b] & post & -> & Hb & Hp). right. split; auto. exists pre, n, b, post. split; auto.
      split; [apply obj_object_UB in Hb; auto|]. intros n' b' Hin. apply Hp in Hin. apply obj_object_fine in Hin. auto.
    + intros [(pre & l & post & -> & H4 & _)|(_ & pre & n & b & post & -> & Hb & Hp)].
      * rewrite H3 in H4 by (apply in_or_app; right; left; auto). discriminate.
      * exists pre, (n, b), post. split; auto. split; [apply obj_object_UB; auto|]. intros [n' b'] Hin. apply Hp in Hin. apply obj_object_fine; auto.
  - split; [discriminate|]. intros [(pre & l & post & -> & H4 & Hp)|(H3 & _)]; exfalso.
    + assert (omapM (fun l => line2pt (tl l)) (pre ++ l :: post) = UB) as E'; [|congruence].
      apply omapM_UB_iff. exists pre, l, post. split; auto. split; [apply numbers4; auto|]. intros b Hb. apply numbers3. auto.
    + assert (exists P, omapM (fun l => line2pt (tl l)) vs = Ok P) as [P E']; [|congruence]. clear E.
      induction vs as [|l vs IH]; [exists []; auto|]. destruct (proj1 (numbers3 l) (H3 l (or_introl eq_refl))) as [p Hp].
      destruct IH as [P E]; [intros; apply H3; right; auto|]. exists (p :: P). cbn [omapM]. rewrite Hp. cbn [bind]. rewrite E. reflexivity.
  - split; auto. intros _. left. apply omapM_UB_iff in E as (pre & l & post & -> & Hl & Hp). exists pre, l, post. split; auto.
    split; [apply numbers4; auto|]. intros l' Hl'. apply numbers3. auto.
Qed.
Lemma omapM_Throw_at {A B} (f : A -> outcome B) pre a post e : f a = Throw e -> (forall b, In b pre -> exists c, f b = Ok c) ->
  omapM f (pre ++ a :: post) = Throw e.
Proof.
  intros Ha. induction pre as [|x pre IH]; intros Hp; cbn [app omapM].
  - rewrite Ha. reflexivity.
  - destruct (Hp x (or_introl eq_refl)) as [c ->]. cbn [bind]. rewrite IH by (intros; apply Hp; right; auto). reflexivity.
Qed.
Lemma C29_vertex_proof t vs rest pre l post : obj_file t vs rest -> vs = pre ++ l :: post ->
  (forall l', In l' pre -> numbers l' = 3%nat) -> numbers l <> 3%nat -> numbers l <> 4%nat -> obj_read t = Throw IosFailure.
Proof.
  intros Hf E Hp H3 H4. rewrite (obj_read_file _ _ _ Hf). destruct (obj_lines t) as [|l0 ls] eqn:El.
  { destruct Hf as (E' & _). rewrite El in E'. subst vs. destruct pre; discriminate. }
  subst vs. erewrite omapM_Throw_at; [reflexivity| |].
  - pose proof (line2pt_cases l) as C. destruct (line2pt (tl l)) as [p|e|] eqn:Ep.
    + exfalso. apply H3. apply numbers3. eauto.
    + destruct C as [-> _]. reflexivity.
    + contradiction.
  - intros b Hb. apply numbers3. auto.
Qed.
Lemma C28_numbering_proof P n body idxs : Forall2 good_index_line body idxs ->
  (forall i, In i (concat idxs) -> (i < nsize P)%N) ->
  exists r, obj_object P (n, body) = Ok r /\ m_name r = n /\
    Forall2 (Forall2 (fun i j => nth_error (first_uses (concat idxs)) (N.to_nat j) = Some i)) idxs (m_faces r).
Proof.
  intros H Hi. pose proof (obj_object_spec P n body) as S. rewrite (proj2 (facet_idxs _ _) H) in S.
  replace (forallb _ _) with true in S. 2:{ symmetry. apply forallb_forall. intros x Hx. apply Hi in Hx. lia. }
  destruct S as (fs & E & S). eexists. split; [exact E|]. split; [reflexivity|]. exact S.
Qed.
Lemma C29_decomposition_proof t : exists vs rest objs, obj_file t vs rest /\ objects_of rest objs /\
  forall vs' rest' objs', obj_file t vs' rest' -> objects_of rest' objs' -> vs' = vs /\ rest' = rest /\ objs' = objs.
Proof.
  destruct (obj_file_exists t) as (vs & rest & H). exists vs, rest, (obj_objects rest). split; auto.
  split; [apply objects_of_unique; auto|]. intros vs' rest' objs' H1 H2. destruct (obj_file_unique _ _ _ _ _ H H1) as [-> ->].
  apply objects_of_unique in H2. auto.
Qed.

Lemma C29_accepts_proof t vs rest objs : obj_file t vs rest -> objects_of rest objs ->
  ((exists rs, obj_read t = Ok rs) <-> obj_lines t <> [] /\ (forall l, In l vs -> numbers l = 3%nat) /\ forall n body, In (n, body) objs -> object_fine (length vs) body).
Proof.
  intros Hf Ho. apply objects_of_unique in Ho. subst objs. rewrite (obj_read_file _ _ _ Hf).
  destruct (obj_lines t) as [|l0 ls] eqn:El; [split; [intros [rs H]; discriminate|intros [H _]; congruence]|]. split.
  - intros [rs E]. split; [discriminate|]. apply bind_Ok in E as (P & EP & E).
    pose proof (proj1 (omapM_exists (fun l => line2pt (tl l)) vs) (ex_intro _ P EP)) as H3. split; [intros l Hl; apply numbers3; auto|].
    apply vertex_lines, Forall2_len in EP. rewrite EP. intros n b Hb. apply (obj_object_fine P n b). apply (proj1 (omapM_exists _ _) (ex_intro _ rs E) (n, b) Hb).
  - intros (_ & H3 & HF). destruct (proj2 (omapM_exists (fun l => line2pt (tl l)) vs)) as [P EP]; [intros l Hl; apply numbers3; auto|]. rewrite EP. cbn [bind].
    apply vertex_lines, Forall2_len in EP. apply omapM_exists. intros [n b] Hb. apply obj_object_fine. rewrite <- EP. eauto.
Qed.
