(** * A command line leaves with status 0 only if a word of it asks for help or the version. *)
From Coq Require Import Strings.String Lia.
From Verif Require Import Base Dbl Decimal Streams Handlers Raster Spec_io Cli Docopt Spec_line Handlers_proofs Docopt_proofs Line_proofs.
Import List.
Open Scope nat_scope.

Definition hv (n : str) : Prop := n = lit "--help" \/ n = lit "--version" \/ n = lit "-h".
Section EXIT.
Context (o0 : list opt) (two : 2 <= length (filter (fun x => prefix_of dash2 (o_long x)) o0)).
Definition grown (o : list opt) : Prop := (exists e, o = o0 ++ e) /\ forall y, In y o -> hv (o_name y) -> o_short y = [] \/ o_short y = lit "-h".
Lemma hv_long n : hv n -> begins dash2 n -> begins (lit "--h") n \/ begins (lit "--v") n.
Proof. intros [-> |[-> | ->]] [t E]; [left; eexists; reflexivity|right; eexists; reflexivity|discriminate]. Qed.
Lemma hv_prefix n m : hv m -> begins dash2 n -> n <> dash2 -> begins n m -> begins (lit "--h") n \/ begins (lit "--v") n.
Proof.
  intros H [t ->] N [u ->]. destruct t as [|c t]; [now destruct N|]. destruct H as [E|[E|E]]; try discriminate; change (lit "--help") with (dash2 ++ lit "help") in E; change (lit "--version") with (dash2 ++ lit "version") in E; rewrite <- app_assoc in E; apply app_inv_head in E; cbn [app] in E.
  - left. exists t. change (lit "help") with ("h"%char :: lit "elp") in E. injection E as -> _. reflexivity.
  - right. exists t. change (lit "version") with ("v"%char :: lit "ersion") in E. injection E as -> _. reflexivity.
Qed.
Lemma grown_more o x : grown o -> (hv (o_name x) -> o_short x = [] \/ o_short x = lit "-h") -> grown (o ++ [x]).
Proof.
  intros [[e ->] I] H. split; [exists (e ++ [x]); now rewrite app_assoc|]. intros y Y. apply in_app_or in Y. destruct Y as [Y|[<-|[]]]; auto.
Qed.
Lemma parse_long_hv tok toks o x r o' : grown o -> begins dash2 tok -> parse_long true tok toks o = Some (x, r, o') ->
  grown o' /\ (hv (o_name x) -> begins (lit "--h") tok \/ begins (lit "--v") tok) /\ exists pre, toks = pre ++ r.
Proof.
  intros Gr B E. unfold parse_long in E. destruct (partition_eq tok) as [n v] eqn:P. destruct (partition_inv tok n v P) as [Eq Et].
  assert (begins dash2 n) as Bn.
  { destruct v as [v|]; [|now rewrite <- Et]. rewrite Et in B. destruct B as [t B]. destruct n as [|c [|d n]]; [discriminate B|change dash2 with [ch_dash; ch_dash] in B; injection B as _ B; discriminate B|]. change dash2 with [ch_dash; ch_dash] in B. injection B as -> -> B. exists n. reflexivity. }
  assert (forall a, begins a n -> begins a tok) as Up.
  { intros a [t ->]. rewrite Et. destruct v; [|now exists t]. exists (t ++ ch_eq :: s). now rewrite app_assoc. }
  destruct (match named o n with [] => if true then prefixed o n else [] | l => l end) as [|y [|z l]] eqn:Sm; [| |discriminate].
  - injection E as <- <- <-. split; [|split; [|now exists []]].
    + apply grown_more; auto.
    + unfold o_name. cbn [o_long o_short]. intros H. destruct n as [|c n]; [destruct Bn; discriminate|]. destruct (hv_long _ H Bn); auto.
  - assert (In y o /\ begins n (o_long y) /\ (n <> dash2 \/ o_long y = n) /\ o_long y <> []) as (Iy & Pn & Nn & Ly).
    { destruct (named o n) as [|a b] eqn:Nm.
      - assert (In y (prefixed o n)) as I by (rewrite Sm; now left). apply filter_In in I. destruct I as [I Q]. destruct (o_long y) as [|c l] eqn:L; [discriminate|]. split; auto. split; [now apply prefix_begins|]. split; [left|discriminate].
        intros ->. destruct Gr as [[e ->] _]. unfold prefixed in Sm. rewrite filter_app in Sm. apply (f_equal (@length opt)) in Sm. rewrite app_length in Sm. cbn [length] in Sm.
        assert (length (filter (fun x => match o_long x with [] => false | _ => prefix_of dash2 (o_long x) end) o0) = length (filter (fun x => prefix_of dash2 (o_long x)) o0)) as Q'.
        { f_equal. apply filter_ext. intros a. now destruct (o_long a). }
        assert (filter (fun x => match o_long x with [] => false | l => prefix_of dash2 l end) o0 = filter (fun x => match o_long x with [] => false | _ => prefix_of dash2 (o_long x) end) o0) as Q'' by (apply filter_ext; intros a; now destruct (o_long a)).
        rewrite Q'', Q' in Sm. lia.
      - injection Sm as -> ->. assert (In y (named o n)) as I by (rewrite Nm; now left). apply filter_In in I. destruct I as [I Q]. apply str_eqb_eq in Q. split; auto. split; [exists []; now rewrite app_nil_r|]. split.
        + right. exact Q.
        + rewrite Q. intros ->. destruct Bn; discriminate. }
    assert (hv (o_long y) -> begins (lit "--h") tok \/ begins (lit "--v") tok) as Hv.
    { intros H. destruct Nn as [Nn|Q]; [destruct (hv_prefix n (o_long y) H Bn Nn Pn); auto|]. rewrite Q in H. destruct (hv_long n H Bn); auto. }
    assert (forall b w, o_name (mkOpt (o_short y) (o_long y) b w) = o_long y) as Nm by (intros; unfold o_name; cbn [o_long o_short]; destruct (o_long y); congruence).
    destruct (o_takes y); [destruct v as [v|]|destruct v as [v|]; [discriminate|]].
    + injection E as <- <- <-. rewrite Nm. split; auto. split; auto. now exists [].
    + destruct toks as [|t toks]; [discriminate|]. destruct (_ || _); [discriminate|]. injection E as <- <- <-. rewrite Nm. split; auto. split; auto. now exists [t].
    + injection E as <- <- <-. rewrite Nm. split; auto. split; auto. now exists [].
Qed.
Lemma hv_short c : hv [ch_dash; c] -> c = "h"%char.
Proof. intros [E|[E|E]]; try discriminate. injection E as ->. reflexivity. Qed.
Lemma parse_shorts_hv cs : forall toks o xs r o', grown o -> parse_shorts true cs toks o = Some (xs, r, o') ->
  grown o' /\ ((exists x, In x xs /\ hv (o_name x)) -> In "h"%char cs) /\ exists pre, toks = pre ++ r.
Proof.
  induction cs as [|c cs IH]; intros toks o xs r o' Gr E; cbn [parse_shorts] in E.
  - injection E as <- <- <-. split; auto. split; [intros (x & [] & _)|now exists []].
  - destruct (filter (fun x => str_eqb (o_short x) [ch_dash; c]) o) as [|y [|z l]] eqn:F; [| |discriminate].
    + destruct (parse_shorts true cs toks _) as [[[ys t] p]|] eqn:E1; [|discriminate]. injection E as <- <- <-.
      destruct (IH toks (o ++ [new_opt [ch_dash; c] [] false (VBool false)]) ys t p) as (A & B & D); auto.
      { apply grown_more; auto. unfold o_name, new_opt. cbn [o_long o_short]. intros H. right. rewrite (hv_short c H). reflexivity. }
      split; auto. split; auto. intros (x & [<-|I] & H); [|right; apply B; eauto]. left. unfold o_name in H. cbn [o_long o_short] in H. exact (hv_short c H).
    + apply filter_one in F. destruct F as (Iy & Sy & _). apply str_eqb_eq in Sy.
      assert (forall b w, hv (o_name (mkOpt (o_short y) (o_long y) b w)) -> c = "h"%char) as Hc.
      { intros b w H. assert (hv (o_name y)) as H' by exact H. destruct Gr as [_ Q]. destruct (Q y Iy H') as [Q'|Q']; rewrite Sy in Q'; [discriminate|]. injection Q' as ->. reflexivity. }
      destruct (o_takes y).
      * destruct cs as [|d cs].
        -- destruct toks as [|t toks]; [discriminate|]. destruct (_ || _); [discriminate|]. injection E as <- <- <-. split; auto. split; [|now exists [t]]. intros (x & [<-|[]] & H). left. eauto.
        -- injection E as <- <- <-. split; auto. split; [|now exists []]. intros (x & [<-|[]] & H). left. eauto.
      * destruct (parse_shorts true cs toks o) as [[[ys t] p]|] eqn:E1; [|discriminate]. injection E as <- <- <-. destruct (IH toks o ys t p Gr E1) as (A & B & D). split; auto. split; auto.
        intros (x & [<-|I] & H); [left; eauto|right; apply B; eauto].
Qed.
Lemma parse_argv_hv fuel : forall argv o is, grown o -> parse_argv fuel argv o = Some is -> (exists x, In (IOpt x) is /\ hv (o_name x)) -> exists s, In s argv /\ asks_help s.
Proof.
  induction fuel as [|fuel IH]; intros argv o is Gr E (x & I & H); [discriminate|]. cbn [parse_argv] in E. destruct argv as [|t argv]; [injection E as <-; destruct I|].
  destruct (str_eqb t dash2) eqn:D; [injection E as <-; cbn [map In] in I; destruct I as [I|I]; [discriminate|]; apply in_map_iff in I; destruct I as (w & Q & _); discriminate|].
  destruct (prefix_of dash2 t) eqn:P.
  - apply prefix_begins in P. destruct (parse_long true t argv o) as [[[y r] o']|] eqn:L; [|discriminate]. destruct (parse_argv fuel r o') as [js|] eqn:R; [|discriminate]. injection E as <-.
    destruct (parse_long_hv t argv o y r o' Gr P L) as (Gr' & Hy & pre & ->). destruct I as [I|I].
    + injection I as ->. exists t. split; [now left|]. unfold asks_help. destruct (Hy H); auto.
    + destruct (IH r o' js Gr' R) as (s & Is & As); [eauto|]. exists s. split; auto. right. apply in_or_app. now right.
  - destruct (prefix_of [ch_dash] t && negb (str_eqb t [ch_dash])) eqn:Q.
    + apply Bool.andb_true_iff in Q. destruct Q as [Q _]. apply prefix_begins in Q. destruct (parse_shorts true (tl t) argv o) as [[[xs r] o']|] eqn:L; [|discriminate]. destruct (parse_argv fuel r o') as [js|] eqn:R; [|discriminate]. injection E as <-.
      destruct (parse_shorts_hv (tl t) argv o xs r o' Gr L) as (Gr' & Hy & pre & ->). apply in_app_or in I. destruct I as [I|I].
      * apply in_map_iff in I. destruct I as (z & Ez & I). injection Ez as ->. exists t. split; [now left|]. right. right. split; auto. split.
        -- intros B. apply prefix_begins in B. change (lit "--") with dash2 in B. congruence.
        -- destruct t as [|c t]; [destruct Q; discriminate|]. right. apply Hy. eauto.
      * destruct (IH r o' js Gr' R) as (s & Is & As); [eauto|]. exists s. split; auto. right. apply in_or_app. now right.
    + destruct (parse_argv fuel argv o) as [js|] eqn:R; [|discriminate]. injection E as <-. destruct I as [I|I]; [discriminate|]. destruct (IH argv o js Gr R) as (s & Is & As); [eauto|]. exists s. split; auto. now right.
Qed.
Lemma opt_set_item n is : opt_set n is = true -> exists x, In (IOpt x) is /\ o_name x = n.
Proof. unfold opt_set. intros E. apply existsb_exists in E. destruct E as ([w|x] & I & Q); [discriminate|]. apply str_eqb_eq in Q. eauto. Qed.
End EXIT.
