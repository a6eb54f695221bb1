(** * C35, C36: boolean operations *)
From Coq Require Import ZArith Reals Lra Lia List Bool Arith Permutation.
From Verif Require Import Base Num MathUtils PlineSegment SpatialIndex PropsIndex Polyline Intersects Combine StdLaws RGeom Spec PropsPolyline PropsPlineIndex PropsFindIntr PropsCoincident PropsSlices PropsStitch.
Import ListNotations.

(** ** C36: results are closed polylines (any scalar implementation, no hypothesis on sorting or hashing) *)
Section Closed.
Context {RO : RealOps} {SL : StdLib}.

Definition closedPline (p : polyline) : Prop := isClosed p = true /\ (2 <= length (vertexes p))%nat.

Lemma bind_inv {A B} (m : res A) (f : A -> res B) b : bind m f = Ok b -> exists a, m = Ok a /\ f a = Ok b.
Proof. destruct m; cbn [bind]; intros H; try discriminate. eauto. Qed.

Lemma closePline_closed result pl r : closePline result pl = Ok r -> List.Forall closedPline result -> List.Forall closedPline r.
Proof.
  unfold closePline, size. destruct (Nat.ltb_spec (length (vertexes pl)) 3) as [_|H3]; intros E Hr; [injection E as <-; auto|].
  apply bind_inv in E. destruct E as (p & Ep & E). injection E as <-. apply Forall_app. split; [auto|]. constructor; [|constructor].
  unfold popBack in Ep. destruct (rev (vertexes pl)) as [|v t] eqn:Er; [discriminate|]. injection Ep as <-. split; [reflexivity|]. cbn [setClosed vertexes].
  rewrite rev_length. apply (f_equal (@length _)) in Er. rewrite rev_length in Er. cbn [length] in Er. lia.
Qed.

Lemma stitchLoop_closed fuel sel d slices ix b : forall visited result curr cur v' r, stitchLoop fuel sel d slices ix b visited result curr cur = Ok (v', r) ->
  List.Forall closedPline result -> List.Forall closedPline r.
Proof.
  induction fuel as [|fuel IH]; intros visited result curr cur v' r E Hr; [discriminate|]. cbn [stitchLoop] in E.
  apply bind_inv in E. destruct E as (lv & _ & E). apply bind_inv in E. destruct E as (q & _ & E). apply bind_inv in E. destruct E as (q' & _ & E).
  destruct q' as [|a q']; [injection E as <- <-; auto|]. apply bind_inv in E. destruct E as (o & _ & E). destruct o as [c|]; [|injection E as <- <-; auto].
  destruct (c =? b)%nat.
  - apply bind_inv in E. destruct E as (r1 & E1 & E). injection E as <- <-. eapply closePline_closed; eauto.
  - apply bind_inv in E. destruct E as (s & _ & E). apply bind_inv in E. destruct E as (p & _ & E). apply bind_inv in E. destruct E as (v1 & _ & E). eapply IH; eauto.
Qed.

Lemma stitch_closed slices sel d r : stitchOrderedSlices slices sel d = Ok r -> List.Forall closedPline r.
Proof.
  unfold stitchOrderedSlices. destruct (_ =? _)%nat; intros E; [injection E as <-; constructor|]. apply bind_inv in E. destruct E as (ix & _ & E).
  apply bind_inv in E. destruct E as ([v' r'] & E & E'). injection E' as <-.
  assert (G : forall l visited result v' r, mfold (stitchFrom sel d slices ix) l (visited, result) = Ok (v', r) -> List.Forall closedPline result -> List.Forall closedPline r).
  { induction l as [|i l IH]; intros visited result v1 r1 E1 Hr; cbn [mfold] in E1; [injection E1 as <- <-; auto|].
    apply bind_inv in E1. destruct E1 as ([v2 r2] & E2 & E1). eapply IH; [exact E1|]. unfold stitchFrom in E2.
    apply bind_inv in E2. destruct E2 as (vis & _ & E2). destruct vis; [injection E2 as <- <-; auto|].
    apply bind_inv in E2. destruct E2 as (v3 & _ & E2). apply bind_inv in E2. destruct E2 as (s & _ & E2). eapply stitchLoop_closed; eauto. }
  eapply G; [exact E|constructor].
Qed.

(** every polyline returned is closed and has at least two vertices *)
Theorem C36_closed A B mode r : closedPline A -> closedPline B -> combinePolylines A B mode = Ok r ->
  List.Forall closedPline (remaining r) /\ List.Forall closedPline (subtracted r).
Proof.
  intros HA HB E. unfold combinePolylines in E. apply bind_inv in E. destruct E as (ix & _ & E). apply bind_inv in E. destruct E as (ci & _ & E).
  apply bind_inv in E. destruct E as (a & _ & E). apply bind_inv in E. destruct E as (b & _ & E).
  destruct mode; destruct (completelyCoincident ci); try (injection E as <-; cbn [remaining subtracted]; auto);
    destruct (negb (anyIntersects ci)); try (injection E as <-; destruct a, b; cbn [remaining subtracted]; auto).
  - apply bind_inv in E. destruct E as (cs & _ & E). apply bind_inv in E. destruct E as (rem & Er & E). injection E as <-. apply stitch_closed in Er.
    unfold splitByOrientation. cbn [remaining subtracted]. rewrite List.Forall_forall in Er. split; apply List.Forall_forall; intros x Hx; apply filter_In in Hx; apply Er; tauto.
  - apply bind_inv in E. destruct E as (cs & _ & E). apply bind_inv in E. destruct E as (rem & Er & E). injection E as <-. apply stitch_closed in Er. cbn [remaining subtracted]. auto.
  - apply bind_inv in E. destruct E as (cs & _ & E). apply bind_inv in E. destruct E as (rem & Er & E). injection E as <-. apply stitch_closed in Er. cbn [remaining subtracted]. auto.
  - apply bind_inv in E. destruct E as (cs & _ & E). apply bind_inv in E. destruct E as (rem & Er & E). apply bind_inv in E. destruct E as (cs2 & _ & E).
    apply bind_inv in E. destruct E as (rem2 & Er2 & E). injection E as <-. apply stitch_closed in Er, Er2. cbn [remaining subtracted]. split; [apply Forall_app; auto|constructor].
Qed.

(** union: a subtracted polyline (a hole) turns the opposite way to plineA, a remaining one the same way (unless it is plineB itself) *)
Theorem C36_union_orientation A B r : combinePolylines A B Union = Ok r ->
  (forall p, In p (remaining r) -> p = B \/ (getArea p <? t0)%t = (getArea A <? t0)%t) /\
  (forall p, In p (subtracted r) -> (getArea p <? t0)%t = negb (getArea A <? t0)%t).
Proof.
  intros E. unfold combinePolylines in E. apply bind_inv in E. destruct E as (ix & _ & E). apply bind_inv in E. destruct E as (ci & Eci & E).
  apply bind_inv in E. destruct E as (a & _ & E). apply bind_inv in E. destruct E as (b & _ & E).
  assert (Ecw : ciPline1IsCW ci = (getArea A <? t0)%t).
  { unfold processForCombine in Eci. apply bind_inv in Eci. destruct Eci as ([intrs coinc] & _ & Eci). destruct coinc; [injection Eci as <-; reflexivity|].
    apply bind_inv in Eci. destruct Eci as (r' & _ & Eci). injection Eci as <-. reflexivity. }
  destruct (completelyCoincident ci); [injection E as <-; cbn [remaining subtracted In]; split; [intros p [<-|[]]; auto|intros p []]|].
  destruct (negb (anyIntersects ci)).
  - injection E as <-. destruct a, b; cbn [remaining subtracted In]; (split; [intros p Hp|intros p []]); repeat (destruct Hp as [<-|Hp]; [auto|]); destruct Hp.
  - apply bind_inv in E. destruct E as (cs & _ & E). apply bind_inv in E. destruct E as (rem & Er & E). injection E as <-.
    unfold splitByOrientation. cbn [remaining subtracted]. rewrite Ecw. split; intros p Hp; apply filter_In in Hp; destruct Hp as [_ Hp].
    + right. rewrite negb_involutive in Hp. now apply eqb_prop in Hp.
    + destruct (getArea p <? t0)%t, (getArea A <? t0)%t; cbn in *; congruence.
Qed.
End Closed.

(** ** C36: the operation always returns (exact reals) *)
Section Total.
Context {SL : StdLib} {SLaws : StdLaws SL}.
Open Scope R_scope.

Lemma flat_map_len {A B} (f : A -> list B) k l : (forall a, In a l -> (length (f a) <= k)%nat) -> (length (flat_map f l) <= k * length l)%nat.
Proof.
  induction l as [|a l IH]; intros H; [cbn; lia|]. cbn [flat_map length]. rewrite app_length. specialize (H a (or_introl eq_refl)) as H1.
  specialize (IH (fun b Hb => H b (or_intror Hb))). lia.
Qed.

Lemma filter_len {A} (f : A -> bool) l : (length (filter f l) <= length l)%nat.
Proof. induction l as [|a l IH]; [cbn; lia|]. cbn [filter]. destruct (f a); cbn [length]; lia. Qed.

Lemma pairs_bound (t : list (nat * nat)) n m : NoDup t -> (forall a b, In (a, b) t -> (a < n)%nat /\ (b < m)%nat) -> (length t <= n * m)%nat.
Proof.
  intros N H. rewrite <- (seq_length n 0), <- (seq_length m 0) at 1. rewrite <- (prod_length (seq 0 n) (seq 0 m)).
  apply NoDup_incl_length; [auto|]. intros [a b] Hab. apply in_prod; apply in_seq; specialize (H a b Hab); lia.
Qed.

Definition okPl (s : polyline) : Prop := (2 <= length (vertexes s))%nat.

Lemma invert_len s : length (vertexes (invertDirection s)) = length (vertexes s).
Proof. apply C22_closed_flag_and_size. Qed.

Lemma invertOpposing_ok slices : forall opp, length opp = length slices -> List.Forall okPl slices ->
  exists r, invertOpposing slices opp = Ok r /\ length r = length slices /\ List.Forall okPl r.
Proof.
  induction slices as [|s slices IH]; intros opp L H; [destruct opp; [|discriminate]; exists []; auto|]. destruct opp as [|o opp]; [discriminate|]. inversion H. subst.
  destruct (IH opp ltac:(cbn in L; lia) ltac:(auto)) as (r & E & Lr & Hr). cbn [invertOpposing]. rewrite E. cbn [bind]. eexists. split; [reflexivity|]. cbn [length]. split; [lia|].
  constructor; [|auto]. destruct o; [|auto]. unfold okPl. now rewrite invert_len.
Qed.

(** what processForCombine delivers *)
Definition okInfo (A B : polyline) (ci : combineInfo) : Prop :=
  okCuts ci false (length (vertexes A)) /\ okCuts ci true (length (vertexes B)) /\ length (ciOpposing ci) = length (ciSlices ci) /\ List.Forall okPl (ciSlices ci) /\
  let k := (length (vertexes A) * length (vertexes B))%nat in
  (length (ciSlices ci) <= k)%nat /\ (length (cuts ci false) <= 4 * k)%nat /\ (length (cuts ci true) <= 4 * k)%nat.

Lemma segCount_le pl : (2 <= length (vertexes pl))%nat -> (segCount pl <= length (vertexes pl))%nat.
Proof. intros H. rewrite segCount_eq by auto. destruct (isClosed pl); lia. Qed.

Lemma combine_len {A B} (l : list A) (l' : list B) : length l' = length l -> length (combine l l') = length l.
Proof. intros. rewrite combine_length. lia. Qed.

Lemma process_ok A B : indexable A -> (2 <= length (vertexes B))%nat ->
  exists ix ci, createApproxSpatialIndex A = Ok ix /\ processForCombine defaultNodeSize A B ix = Ok ci /\ okInfo A B ci.
Proof.
  intros HA HB. pose proof HA as (HA2 & _). destruct (C30_find_intersects A B HA HB) as (ix & tested & intrs & coincs & Eix & Ef & Hnd & Ht & Ec & keep & Ei & _).
  destruct (C30_sound A B ix intrs coincs HA HB Eix Ef) as [Si Sc].
  pose proof (segCount_le A HA2) as LA. pose proof (segCount_le B HB) as LB.
  assert (Lt : (length tested <= length (vertexes A) * length (vertexes B))%nat).
  { apply pairs_bound; [auto|]. intros a b H. apply Ht in H. lia. }
  assert (Li : (length intrs <= 2 * (length (vertexes A) * length (vertexes B)))%nat).
  { rewrite Ei. pose proof (filter_len keep (flat_map (pairPoints A B) tested)). pose proof (flat_map_len (pairPoints A B) 2 tested) as F.
    assert (length (flat_map (pairPoints A B) tested) <= 2 * length tested)%nat; [|lia]. apply F. intros [a b] _. unfold pairPoints. rewrite map_length.
    match goal with |- (length (filter ?f ?l) <= 2)%nat => pose proof (filter_len f l) as Fl; assert (length l <= 2)%nat end; [|lia].
    unfold crossPoints. destruct (intrPlineSegs _ _ _ _); cbn; lia. }
  assert (Lc : (length coincs <= length (vertexes A) * length (vertexes B))%nat).
  { rewrite Ec. pose proof (flat_map_len (pairCoinc A B) 1 tested) as F. assert (length (flat_map (pairCoinc A B) tested) <= 1 * length tested)%nat; [|lia]. apply F.
    intros [a b] _. unfold pairCoinc. rewrite map_length. unfold overlapsOf. destruct (intrPlineSegs _ _ _ _); cbn; lia. }
  set (k := (length (vertexes A) * length (vertexes B))%nat) in *.
  exists ix. unfold processForCombine. rewrite Ef. cbn [bind].
  destruct coincs as [|c0 cs] eqn:Ecs.
  - eexists. split; [exact Eix|]. split; [reflexivity|]. unfold okInfo. fold k. cbn [ciOpposing ciSlices].
    assert (forall second, length (cuts (mkInfo [] intrs [] [] [] (getArea A <? t0)%t (getArea B <? t0)%t) second) = length intrs) as Lcut.
    { intros []; cbn [cuts cutsFirst cutsSecond ciIntrs ciStarts ciEnds ciOpposing combine flat_map map]; unfold cuts, cutsFirst, cutsSecond; cbn [ciIntrs ciStarts ciEnds ciOpposing combine flat_map map]; rewrite ?app_nil_r, map_length; reflexivity. }
    rewrite !Lcut. split; [|split].
    + split; [reflexivity|]. split; [reflexivity|]. intros j p H. unfold cuts, cutsFirst in H. cbn [ciIntrs ciStarts ciEnds map] in H. rewrite !app_nil_r in H. apply in_map_iff in H.
      destruct H as (x & E & Hx). injection E as <- <-. apply Si in Hx. lia.
    + split; [reflexivity|]. split; [reflexivity|]. intros j p H. unfold cuts, cutsSecond in H. cbn [ciIntrs ciStarts ciEnds ciOpposing combine flat_map map] in H. rewrite app_nil_r in H. apply in_map_iff in H.
      destruct H as (x & E & Hx). injection E as <- <-. apply Si in Hx. lia.
    + split; [reflexivity|]. split; [constructor|]. cbn [length]. lia.
  - rewrite <- Ecs in *. assert (Hne : coincs <> []) by (rewrite Ecs; discriminate). clear Ecs c0 cs.
    assert (Hidx : forall c, In c coincs -> okIdx A B c) by (intros c Hc; apply Sc in Hc; unfold okIdx; lia).
    destruct (C32_consistent coincs A B Hne Hidx) as (r & Er & _ & Hok & Hperm).
    destruct (C32_lengths coincs A B r Hne Hidx Er) as (_ & L1 & L2 & L3 & Hs & Hx).
    assert (Ls : (length (csSlices r) <= k)%nat).
    { apply Permutation_length in Hperm. rewrite map_length in Hperm.
      assert (length (csSlices r) <= length (concat (map (fun s => removelast (vertexes s)) (csSlices r))))%nat; [|lia].
      clear -Hs. induction (csSlices r) as [|s l IH]; [cbn; lia|]. cbn [map concat length]. rewrite app_length, (removelast_len []).
      destruct (Hs s (or_introl eq_refl)) as [_ H2]. specialize (IH (fun s' H => Hs s' (or_intror H))). lia. }
    rewrite Er. cbn [bind]. eexists. split; [exact Eix|]. split; [reflexivity|]. unfold okInfo. fold k. cbn [ciOpposing ciSlices].
    split; [|split].
    + split; [cbn [ciEnds ciStarts]; lia|]. split; [cbn [ciOpposing ciStarts]; lia|]. intros j p H. unfold cuts, cutsFirst in H. cbn [ciIntrs ciStarts ciEnds] in H.
      rewrite !in_app_iff, !in_map_iff in H. destruct H as [(x & E & H)|[(x & E & H)|(x & E & H)]]; injection E as <- <-.
      * apply Si in H. lia.
      * apply (Hx x). now left.
      * apply (Hx x). now right.
    + split; [cbn [ciEnds ciStarts]; lia|]. split; [cbn [ciOpposing ciStarts]; lia|]. intros j p H. unfold cuts, cutsSecond in H. cbn [ciIntrs ciStarts ciEnds ciOpposing] in H.
      rewrite in_app_iff, in_map_iff, in_flat_map in H. destruct H as [(x & E & H)|([[s e] o] & H & Hin)].
      * injection E as <- <-. apply Si in H. lia.
      * apply in_combine_l in H. pose proof (in_combine_l _ _ _ _ H) as H1. pose proof (in_combine_r _ _ _ _ H) as H2.
        destruct Hin as [E|[E|[]]]; injection E as <- <-; [apply (Hx s); now left|apply (Hx e); now right].
    + split; [lia|]. split; [apply List.Forall_forall; intros s H; apply Hs in H; apply H|]. split; [lia|]. unfold cuts, cutsFirst, cutsSecond. cbn [ciIntrs ciStarts ciEnds ciOpposing].
      rewrite !app_length, !map_length. split; [lia|].
      match goal with |- (_ + length (flat_map ?f ?l) <= _)%nat => pose proof (flat_map_len f 2 l) as F end.
      rewrite !combine_length in F. specialize (F ltac:(intros [[s e] o] _; cbn; lia)). lia.
Qed.

Lemma collect_ok A B ci predA predB opp : okInfo A B ci -> exists cs, collectSlices A B ci predA predB opp = Ok cs /\
  List.Forall okPl (slicesRemaining cs) /\ (length (slicesRemaining cs) <= 10 * (length (vertexes A) * length (vertexes B)))%nat.
Proof.
  intros (O1 & O2 & L & Hs & K1 & K2 & K3). unfold collectSlices.
  destruct (C33_safe A ci false predA [] O1) as (s1 & -> & G1 & N1). cbn [bind app].
  destruct (C33_safe B ci true predB [] O2) as (s2 & -> & G2 & N2). cbn [bind app].
  destruct (invertOpposing_ok (ciSlices ci) (ciOpposing ci) L Hs) as (s3 & -> & L3 & H3). cbn [bind].
  assert (G : forall cs pred l, List.Forall (goodSlice cs pred) l -> List.Forall okPl l).
  { intros cs pred l H. eapply List.Forall_impl; [|exact H]. intros s (_ & _ & _ & l0 & a & b & E & _). unfold okPl. rewrite E, app_length. cbn. lia. }
  assert (Gi : forall l, List.Forall okPl l -> List.Forall okPl (map invertDirection l)).
  { intros l H. apply List.Forall_forall. intros s Hin. apply in_map_iff in Hin. destruct Hin as (s' & <- & Hin). rewrite List.Forall_forall in H. unfold okPl. rewrite invert_len. now apply H. }
  eexists. split; [reflexivity|]. cbn [slicesRemaining]. split.
  - rewrite !Forall_app. split; [eauto|]. split; [destruct (negb _); eauto|]. split; [auto|]. destruct (negb _); auto.
  - rewrite !app_length. destruct (negb _); rewrite ?map_length; lia.
Qed.

Lemma sjt_pos : 0 < sliceJoinThreshold.
Proof. rewrite sjt_R. lra. Qed.

(** combinePolylines returns for all closed polylines with at most 2^24/10 segment pairs: no loop guard fires, no access is out of range *)
Theorem C36_returns A B mode : indexable A -> closedPline A -> closedPline B -> (10 * Z.of_nat (length (vertexes A)) * Z.of_nat (length (vertexes B)) <= 2 ^ 24)%Z ->
  exists r, combinePolylines A B mode = Ok r /\ List.Forall closedPline (remaining r) /\ List.Forall closedPline (subtracted r).
Proof.
  intros HA CA CB Hsz. assert (exists r, combinePolylines A B mode = Ok r) as [r E].
  2:{ exists r. split; [exact E|]. exact (C36_closed A B mode r CA CB E). }
  pose proof (proj2 CB) as HB. pose proof (proj2 CA) as HA2. destruct (process_ok A B HA HB) as (ix & ci & Eix & Eci & Hinfo). unfold combinePolylines. rewrite Eix. cbn [bind]. rewrite Eci. cbn [bind].
  rewrite !at_get by lia. cbn [bind].
  assert (ST : forall predA predB opp (sel : collected -> nat -> list nat -> res (option nat)), (forall cs, okSelector (sel cs)) ->
    exists cs rem, collectSlices A B ci predA predB opp = Ok cs /\ stitchOrderedSlices (slicesRemaining cs) (sel cs) sliceJoinThreshold = Ok rem).
  { intros predA predB opp sel Hsel. destruct (collect_ok A B ci predA predB opp Hinfo) as (cs & Ecs & Hcs & Lcs).
    destruct (C34_stitch (slicesRemaining cs) (sel cs) sliceJoinThreshold sjt_pos) as (chains & Est & _).
    - lia.
    - rewrite List.Forall_forall in Hcs. intros s Hs. specialize (Hcs s Hs). unfold okPl in Hcs. lia.
    - apply Hsel.
    - exists cs. eexists. split; [exact Ecs|exact Est]. }
  destruct C34_selectors as (_ & SU & SX).
  destruct mode; destruct (completelyCoincident ci); try (eexists; reflexivity); destruct (negb (anyIntersects ci)); try (eexists; reflexivity).
  - match goal with |- context [collectSlices A B ci ?p ?q ?o] => destruct (ST p q o (fun cs => unionAndIntersectSelector (startOfPlineACoincidentSlicesIdx cs)) (fun cs => SU _)) as (cs & rem & -> & Est) end.
    cbn [bind]. match goal with |- context [bind ?m _] => assert (Em : m = Ok rem) by exact Est; rewrite Em end. eexists. reflexivity.
  - match goal with |- context [collectSlices A B ci ?p ?q ?o] => destruct (ST p q o (fun cs => excludeAndXORSelector (startOfPlineBSlicesIdx cs) (startOfPlineACoincidentSlicesIdx cs) (startOfPlineBCoincidentSlicesIdx cs)) (fun cs => SX _ _ _)) as (cs & rem & -> & Est) end.
    cbn [bind]. match goal with |- context [bind ?m _] => assert (Em : m = Ok rem) by exact Est; rewrite Em end. eexists. reflexivity.
  - match goal with |- context [collectSlices A B ci ?p ?q ?o] => destruct (ST p q o (fun cs => unionAndIntersectSelector (startOfPlineACoincidentSlicesIdx cs)) (fun cs => SU _)) as (cs & rem & -> & Est) end.
    cbn [bind]. match goal with |- context [bind ?m _] => assert (Em : m = Ok rem) by exact Est; rewrite Em end. eexists. reflexivity.
  - match goal with |- context [collectSlices A B ci ?p ?q ?o] => destruct (ST p q o (fun cs => excludeAndXORSelector (startOfPlineBSlicesIdx cs) (startOfPlineACoincidentSlicesIdx cs) (startOfPlineBCoincidentSlicesIdx cs)) (fun cs => SX _ _ _)) as (cs & rem & -> & Est) end.
    cbn [bind]. match goal with |- context [bind ?m _] => assert (Em : m = Ok rem) by exact Est; rewrite Em end. cbn [bind].
    match goal with |- context [collectSlices A B ci ?p ?q ?o] => destruct (ST p q o (fun cs => excludeAndXORSelector (startOfPlineBSlicesIdx cs) (startOfPlineACoincidentSlicesIdx cs) (startOfPlineBCoincidentSlicesIdx cs)) (fun cs => SX _ _ _)) as (cs2 & rem2 & -> & Est2) end.
    cbn [bind]. match goal with |- context [bind ?m _] => assert (Em2 : m = Ok rem2) by exact Est2; rewrite Em2 end. eexists. reflexivity.
Qed.
End Total.
