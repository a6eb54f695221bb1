(** * C31: globalSelfIntersects tests every pair of segments once *)
From Coq Require Import ZArith Reals Lra Lia List Bool Arith Permutation.
From Verif Require Import Base Num MathUtils PlineSegment SpatialIndex IndexTree IndexQuery PropsIndex Polyline Intersects RGeom Spec PropsMath ArcGeom PropsSegment PropsIntr PropsPlineIntr PropsPolyline PropsPlineIndex PropsFindIntr.
Import ListNotations.
Open Scope R_scope.

(** ** Specification *)

(** two segments (named by their start vertex) that have a vertex in common *)
Definition shareVertex (pl : polyline) (a b : nat) : Prop :=
  a = b \/ a = nextI pl b \/ nextI pl a = b \/ nextI pl a = nextI pl b.

(** the points reported for a pair: isolated crossings and ends of overlapping stretches, other than the two start points *)
Definition selfPoints (pl : polyline) (e : nat * nat) : list pIntr :=
  let '(a, b) := e in
  let va := at_ pl a in let vb := at_ pl b in
  map (mkIntr a b)
    (filter (fun p => negb (same (pos va) p || same (pos vb) p))
       (crossPoints va (at_ pl (nextI pl a)) vb (at_ pl (nextI pl b)) ++
        flat_map (fun pq => [fst pq; snd pq]) (overlapsOf va (at_ pl (nextI pl a)) vb (at_ pl (nextI pl b))))).

(** a pair that has to be tested: two segments without common vertex whose boxes come within 1e-8 *)
Definition farPair (pl : polyline) (a b : nat) : Prop :=
  (a < segCount pl)%nat /\ (b < segCount pl)%nat /\ ~ shareVertex pl a b /\ boxesMeet (sbox pl a) (1 / 100000000) (sbox pl b).

(** ** Proof *)
Lemma boxesMeet_sym a d b : boxesMeet a d b -> boxesMeet b d a.
Proof. unfold boxesMeet. lra. Qed.

Definition shareb (pl : polyline) (a b : nat) : bool :=
  ((a =? b) || (a =? nextI pl b) || (nextI pl a =? b) || (nextI pl a =? nextI pl b))%nat.
Lemma shareb_iff pl a b : shareb pl a b = true <-> shareVertex pl a b.
Proof. unfold shareb, shareVertex. rewrite !orb_true_iff, !Nat.eqb_eq. tauto. Qed.

Definition pureStep (pl : polyline) (tested : list (nat * nat)) (e : nat * nat) : list (nat * nat) :=
  if shareb pl (fst e) (snd e) then tested else if pairMem (snd e) (fst e) tested then tested else tested ++ [e].

Lemma pairMem_rev a b l : pairMem a b (rev l) = pairMem a b l.
Proof.
  destruct (pairMem a b l) eqn:E.
  - apply pairMem_In in E. apply pairMem_In. now apply -> in_rev.
  - destruct (pairMem a b (rev l)) eqn:E'; [|reflexivity]. apply pairMem_In, in_rev, pairMem_In in E'. congruence.
Qed.

Lemma global_step pl i h tested out : (2 <= length (vertexes pl))%nat -> (i < segCount pl)%nat -> (h < segCount pl)%nat ->
  globalIndexVisitor pl i (nextI pl i) (at_ pl i) (at_ pl (nextI pl i)) (Ok (rev tested, out ++ flat_map (selfPoints pl) tested)) h =
  (true, Ok (rev (pureStep pl tested (i, h)), out ++ flat_map (selfPoints pl) (pureStep pl tested (i, h)))).
Proof.
  intros Hn Hi Hh. destruct (seg_in_range pl h Hn Hh) as [R1 R2].
  unfold globalIndexVisitor, pureStep. cbn [bind fst snd]. f_equal.
  change (nextWrappingIndex h (size pl)) with (nextI pl h). fold (shareb pl i h). destruct (shareb pl i h); [reflexivity|].
  rewrite pairMem_rev. destruct (pairMem h i tested); [reflexivity|].
  rewrite !at_get by auto. cbn [bind]. rewrite rev_app_distr, flat_map_app. cbn [rev app flat_map]. rewrite app_nil_r, <- app_assoc. do 4 f_equal.
  unfold globalPairIntrs, selfPoints, crossPoints, overlapsOf, same. rcbn.
  destruct (intrPlineSegs _ _ _ _) as [|p|p q|p q|p q]; cbn [filter map flat_map app fst snd]; try reflexivity.
  - destruct (negb _); reflexivity.
  - destruct (negb (fuzzyEqual (pos (at_ pl i)) p _ || _)), (negb (fuzzyEqual (pos (at_ pl i)) q _ || _)); reflexivity.
  - destruct (negb (fuzzyEqual (pos (at_ pl i)) p _ || _)), (negb (fuzzyEqual (pos (at_ pl i)) q _ || _)); reflexivity.
  - destruct (negb (fuzzyEqual (pos (at_ pl i)) p _ || _)), (negb (fuzzyEqual (pos (at_ pl i)) q _ || _)); reflexivity.
Qed.

Lemma global_inner pl i out : (2 <= length (vertexes pl))%nat -> (i < segCount pl)%nat ->
  forall hits, (forall h, In h hits -> (h < segCount pl)%nat) -> forall tested,
  runVisitor (globalIndexVisitor pl i (nextI pl i) (at_ pl i) (at_ pl (nextI pl i))) (Ok (rev tested, out ++ flat_map (selfPoints pl) tested)) hits =
  (true, let t := fold_left (pureStep pl) (map (fun h => (i, h)) hits) tested in Ok (rev t, out ++ flat_map (selfPoints pl) t)).
Proof.
  intros Hn Hi. induction hits as [|h hits IH]; intros Hh tested; [reflexivity|]. cbn [runVisitor map fold_left].
  rewrite global_step by (auto; apply Hh; now left). apply IH. intros; apply Hh; now right.
Qed.

Lemma global_outer pl ix (hits : nat -> list nat) out : (2 <= length (vertexes pl))%nat ->
  (forall i, forall (St : Type) (visitor : St -> nat -> bool * St) (st : St),
     visitQuery defaultNodeSize ix (Fin (xMin (sbox pl i) - 1 / 100000000)) (Fin (yMin (sbox pl i) - 1 / 100000000))
        (Fin (xMax (sbox pl i) + 1 / 100000000)) (Fin (yMax (sbox pl i) + 1 / 100000000)) visitor st = Ok (snd (runVisitor visitor st (hits i)))) ->
  (forall i h, In h (hits i) -> (h < segCount pl)%nat) ->
  forall items, (forall i, In i items -> (i < segCount pl)%nat) -> forall tested,
  runVisitor (fun st i => globalItemVisitor defaultNodeSize ix pl st i (toBox (sbox pl i))) (Ok (rev tested, out ++ flat_map (selfPoints pl) tested)) items =
  (true, let t := fold_left (pureStep pl) (flat_map (fun i => map (fun h => (i, h)) (hits i)) items) tested in Ok (rev t, out ++ flat_map (selfPoints pl) t)).
Proof.
  intros Hn HQ Hh. induction items as [|i items IH]; intros Hi tested; [reflexivity|]. cbn [runVisitor flat_map].
  assert (Hi0 : (i < segCount pl)%nat) by (apply Hi; now left). destruct (seg_in_range pl i Hn Hi0) as [R1 R2].
  rewrite fold_left_app.
  assert (Es : globalItemVisitor defaultNodeSize ix pl (Ok (rev tested, out ++ flat_map (selfPoints pl) tested)) i (toBox (sbox pl i)) =
    (true, let t := fold_left (pureStep pl) (map (fun h => (i, h)) (hits i)) tested in Ok (rev t, out ++ flat_map (selfPoints pl) t))).
  { unfold globalItemVisitor. change (nextWrappingIndex i (size pl)) with (nextI pl i). cbn [bind]. rewrite !at_get by auto. cbn [bind]. f_equal.
    match goal with |- (let! _ := ?m in _) = _ => assert (Em : m = Ok (snd (runVisitor (globalIndexVisitor pl i (nextI pl i) (at_ pl i) (at_ pl (nextI pl i)))
       (Ok (rev tested, out ++ flat_map (selfPoints pl) tested)) (hits i)))) end.
    { rewrite <- HQ. cbn [toBox bMinX bMinY bMaxX bMaxY]. rewrite thr_R. reflexivity. }
    rewrite Em. cbn [bind]. rewrite global_inner by (auto; intros; eapply Hh; eauto). reflexivity. }
  rewrite Es. cbv zeta. apply IH. intros; apply Hi; now right.
Qed.

(** facts about the list of tested pairs, by induction over the candidate pairs in visiting order *)
Lemma pure_inv pl l : NoDup l -> let t := fold_left (pureStep pl) l [] in
  NoDup t /\ (forall a b, In (a, b) t -> In (a, b) l /\ ~ shareVertex pl a b /\ ~ In (b, a) t) /\
  (forall a b, In (a, b) l -> ~ shareVertex pl a b -> In (a, b) t \/ In (b, a) t).
Proof.
  induction l as [|[x y] l IH] using rev_ind; intros Hnd t.
  - unfold t. cbn [fold_left]. split; [constructor|]. split; intros a b [].
  - apply NoDup_remove in Hnd. rewrite app_nil_r in Hnd. destruct Hnd as [Hnd Hni]. unfold t. rewrite fold_left_app. cbn [fold_left].
    destruct (IH Hnd) as (N & S & C). clear IH t. set (t := fold_left (pureStep pl) l []) in *. clearbody t.
    assert (Sh : shareb pl x y = false -> ~ shareVertex pl x y) by (intros E Hs; apply shareb_iff in Hs; congruence).
    unfold pureStep. cbn [fst snd]. destruct (shareb pl x y) eqn:E1; [|destruct (pairMem y x t) eqn:E2].
    + apply shareb_iff in E1. split; [auto|]. split.
      * intros a b H. destruct (S a b H) as (H1 & H2). split; [apply in_or_app; auto|auto].
      * intros a b H Hs. apply in_app_or in H. destruct H as [H|[H|[]]]; [auto|]. injection H as -> ->. contradiction.
    + apply pairMem_In in E2. split; [auto|]. split.
      * intros a b H. destruct (S a b H) as (H1 & H2). split; [apply in_or_app; auto|auto].
      * intros a b H Hs. apply in_app_or in H. destruct H as [H|[H|[]]]; [auto|]. injection H as -> ->. auto.
    + assert (Hn : ~ In (y, x) t) by (intros H; apply pairMem_In in H; congruence).
      assert (Hn' : ~ In (x, y) t) by (intros H; apply S in H; tauto).
      assert (Hxy : (x, y) <> (y, x)) by (intros H; injection H as -> _; apply (Sh eq_refl); now left).
      split; [|split].
      * apply (Permutation_NoDup (Permutation_app_comm [(x, y)] t)). cbn [app]. now constructor.
      * intros a b H. apply in_app_or in H. destruct H as [H|[H|[]]].
        -- destruct (S a b H) as (H1 & H2 & H3). split; [apply in_or_app; auto|]. split; [auto|]. intros Hb. apply in_app_or in Hb.
           destruct Hb as [Hb|[Hb|[]]]; [auto|]. injection Hb as -> ->. auto.
        -- injection H as <- <-. split; [apply in_or_app; right; now left|]. split; [auto|]. intros Hb. apply in_app_or in Hb.
           destruct Hb as [Hb|[Hb|[]]]; auto.
      * intros a b H Hs. apply in_app_or in H. destruct H as [H|[H|[]]].
        -- destruct (C a b H Hs); [left|right]; apply in_or_app; auto.
        -- injection H as <- <-. left. apply in_or_app. right. now left.
Qed.

(** ** C31 *)

(** globalSelfIntersects appends the points of the [tested] pairs; [tested] holds every unordered pair of segments without common vertex
    whose boxes come within 1e-8 exactly once (in one of its two orders), and nothing else *)
Theorem C31_each_pair_once pl out : (3 <= length (vertexes pl))%nat -> indexable pl ->
  exists ix tested,
    createApproxSpatialIndex pl = Ok ix /\
    globalSelfIntersects defaultNodeSize pl out ix = Ok (out ++ flat_map (selfPoints pl) tested) /\
    NoDup tested /\
    (forall a b, In (a, b) tested -> farPair pl a b /\ ~ In (b, a) tested) /\
    (forall a b, farPair pl a b -> In (a, b) tested \/ In (b, a) tested).
Proof.
  intros H3 Hix. pose proof Hix as (Hn & _). destruct (pline_index pl Hix) as (ix & Ecr & HQ & items & Hperm & Hitems).
  assert (HH : exists hits : nat -> list nat, forall i, NoDup (hits i) /\ (forall h, In h (hits i) <-> (h < segCount pl)%nat /\ boxesMeet (sbox pl i) (1 / 100000000) (sbox pl h)) /\
    forall (St : Type) (visitor : St -> nat -> bool * St) (st : St),
     visitQuery defaultNodeSize ix (Fin (xMin (sbox pl i) - 1 / 100000000)) (Fin (yMin (sbox pl i) - 1 / 100000000))
        (Fin (xMax (sbox pl i) + 1 / 100000000)) (Fin (yMax (sbox pl i) + 1 / 100000000)) visitor st = Ok (snd (runVisitor visitor st (hits i)))).
  { set (hits := fun i => match query defaultNodeSize ix (Fin (xMin (sbox pl i) - 1 / 100000000)) (Fin (yMin (sbox pl i) - 1 / 100000000))
        (Fin (xMax (sbox pl i) + 1 / 100000000)) (Fin (yMax (sbox pl i) + 1 / 100000000)) [] with Ok l => l | _ => [] end).
    exists hits. intros i. destruct (HQ (sbox pl i) (1 / 100000000)) as (l & Hnd & Hl & Hv).
    assert (El : hits i = l).
    { unfold hits, query. rewrite Hv. rewrite (runVisitor_true (fun rs i => rs ++ [i])). cbn [snd].
      assert (G : forall (l a : list nat), fold_left (fun rs i => rs ++ [i]) l a = a ++ l).
      { clear. induction l as [|x l IH]; intros a; cbn [fold_left]; [now rewrite app_nil_r|]. rewrite IH. now rewrite <- app_assoc. }
      now rewrite G. }
    rewrite El. auto. }
  destruct HH as (hits & HH).
  set (cands := flat_map (fun i => map (fun h => (i, h)) (hits i)) items).
  assert (Hin : forall i, In i items <-> (i < segCount pl)%nat).
  { intros i. split; intros H.
    - apply (Permutation_in _ Hperm), in_seq in H. lia.
    - apply (Permutation_in _ (Permutation_sym Hperm)), in_seq. lia. }
  assert (Hc : forall a b, In (a, b) cands <-> (a < segCount pl)%nat /\ (b < segCount pl)%nat /\ boxesMeet (sbox pl a) (1 / 100000000) (sbox pl b)).
  { intros a b. unfold cands. rewrite in_flat_map. split.
    - intros (i & Hi & Hm). apply in_map_iff in Hm. destruct Hm as (h & E & Hh). injection E as <- <-. apply (HH i) in Hh. apply Hin in Hi. tauto.
    - intros (H1 & H2 & H4). exists a. split; [now apply Hin|]. apply in_map_iff. exists b. split; [auto|]. apply (HH a). auto. }
  assert (Hnd : NoDup cands).
  { unfold cands. assert (Ni : NoDup items) by (apply (Permutation_NoDup (Permutation_sym Hperm)), seq_NoDup). clear -Ni HH.
    induction items as [|i items IH]; [constructor|]. inversion Ni as [|? ? Hi Hit]. subst. cbn [flat_map].
    assert (G : forall (a b : list (nat * nat)), NoDup a -> NoDup b -> (forall x, In x a -> ~ In x b) -> NoDup (a ++ b)).
    { clear. induction a as [|x a IH]; intros b Ha Hb H; [auto|]. inversion Ha. subst. cbn [app]. constructor.
      - rewrite in_app_iff. intros [Q|Q]; [auto|]. apply (H x); auto. now left.
      - apply IH; auto. intros y Hy. apply H. now right. }
    apply G; auto.
    - apply FinFun.Injective_map_NoDup; [intros x y E; now injection E|]. apply HH.
    - intros [a b] Ha Hb. apply in_map_iff in Ha. destruct Ha as (k & E & _). injection E as <- <-. apply in_flat_map in Hb.
      destruct Hb as (i' & Hi' & Hm). apply in_map_iff in Hm. destruct Hm as (k' & E & _). injection E as <- <-. auto. }
  destruct (pure_inv pl cands Hnd) as (N & S & C). exists ix, (fold_left (pureStep pl) cands []). split; [exact Ecr|]. split; [|split; [exact N|split]].
  - unfold globalSelfIntersects, size. destruct (Nat.ltb_spec (length (vertexes pl)) 3); [lia|]. rewrite Hitems.
    pose proof (global_outer pl ix hits out Hn (fun i => proj2 (proj2 (HH i))) (fun i h H => proj1 (proj1 (proj1 (proj2 (HH i)) h) H)) items (fun i H => proj1 (Hin i) H) []) as E.
    cbn [rev flat_map] in E. rewrite app_nil_r in E. cbv zeta in E. rewrite E. reflexivity.
  - intros a b H. destruct (S a b H) as (H1 & H2 & H4). apply Hc in H1. split; [|auto]. unfold farPair. tauto.
  - intros a b (H1 & H2 & H4 & H5). apply C; auto. apply Hc. auto.
Qed.

(** a pair of segments with a common point but no common vertex is tested *)
Theorem C31_no_crossing_lost pl out a b q : (3 <= length (vertexes pl))%nat -> indexable pl ->
  (a < segCount pl)%nat -> (b < segCount pl)%nat -> ~ shareVertex pl a b -> Rabs (bulge (at_ pl a)) <= 1 -> Rabs (bulge (at_ pl b)) <= 1 ->
  onSeg (at_ pl a) (at_ pl (nextI pl a)) q -> onSeg (at_ pl b) (at_ pl (nextI pl b)) q ->
  exists ix res, createApproxSpatialIndex pl = Ok ix /\ globalSelfIntersects defaultNodeSize pl out ix = Ok res /\
    ((forall x, In x (selfPoints pl (a, b)) -> In x res) \/ (forall x, In x (selfPoints pl (b, a)) -> In x res)).
Proof.
  intros H3 Hix Ha Hb Hs Ba Bb Oa Ob. destruct (C31_each_pair_once pl out H3 Hix) as (ix & tested & E1 & E2 & _ & _ & C).
  exists ix. eexists. split; [exact E1|]. split; [exact E2|].
  destruct (C a b) as [H|H].
  { unfold farPair. split; [auto|]. split; [auto|]. split; [auto|]. apply (boxes_of_crossing _ _ _ _ q); auto. lra. }
  - left. intros x Hx. apply in_or_app. right. apply in_flat_map. eauto.
  - right. intros x Hx. apply in_or_app. right. apply in_flat_map. eauto.
Qed.

(** with fewer than three vertices there is nothing to test *)
Theorem C31_small pl out ix : (length (vertexes pl) < 3)%nat -> globalSelfIntersects defaultNodeSize pl out ix = Ok out.
Proof. intros H. unfold globalSelfIntersects, size. destruct (Nat.ltb_spec (length (vertexes pl)) 3); [reflexivity|lia]. Qed.

(** non-vacuity: segments 0 and 2 of the bow tie are such a pair *)
Example C31_bow_tie : let pl := mkPline true [mkVertex 0 0 0; mkVertex 2 2 0; mkVertex 2 0 0; mkVertex 0 2 0] in
  (3 <= length (vertexes pl))%nat /\ indexable pl /\ ~ shareVertex pl 0 2 /\
  onSeg (at_ pl 0) (at_ pl (nextI pl 0)) (mkV 1 1) /\ onSeg (at_ pl 2) (at_ pl (nextI pl 2)) (mkV 1 1) /\ farPair pl 0 2.
Proof.
  intros pl. assert (Hs : ~ shareVertex pl 0 2) by (unfold shareVertex; cbn; lia).
  assert (Hb : forall i, (i < 4)%nat -> Rabs (bulge (at_ pl i)) <= 1).
  { intros i Hi. do 4 (destruct i as [|i]; [cbn; rewrite Rabs_R0; lra|]). lia. }
  assert (O : onSeg (at_ pl 0) (at_ pl (nextI pl 0)) (mkV 1 1) /\ onSeg (at_ pl 2) (at_ pl (nextI pl 2)) (mkV 1 1)).
  { split; exists (1/2); (split; [lra|]); (rewrite segPoint_line; [|unfold isLine; cbn; rewrite Rabs_R0; lra]); cbn; unfold lerp; cbn; f_equal; lra. }
  split; [cbn; lia|]. split; [unfold indexable, segCount; cbn; split; [lia|]; split; [lia|]; left; lia|]. split; [exact Hs|].
  split; [apply O|]. split; [apply O|]. unfold farPair. split; [cbn; lia|]. split; [cbn; lia|]. split; [exact Hs|].
  apply (boxes_of_crossing _ _ _ _ (mkV 1 1)); [lra|apply Hb; lia|apply Hb; lia|apply O|apply O].
Qed.

(** ** C46: localSelfIntersects tests every pair of consecutive segments once *)

(** consecutive segments a and b = next a, with the vertex shared by them; for n >= 3 vertices *)
Definition consecutivePairs (pl : polyline) : list (nat * nat) :=
  let n := length (vertexes pl) in
  map (fun i => (i, nextI pl i)) (if isClosed pl then seq 0 n else seq 0 (n - 2)).

(** what is reported for consecutive segments a (from [va] to the shared vertex [vb]) and b (from [vb] to [vc]): a degenerate first
    segment is reported at its start; otherwise the crossings other than the shared vertex, and the first end of an overlap *)
Definition consecutivePoints (pl : polyline) (e : nat * nat) : list pIntr :=
  let '(a, b) := e in
  let va := at_ pl a in let vb := at_ pl b in let vc := at_ pl (nextI pl b) in
  map (mkIntr a b)
    (if fuzzyEqual (pos va) (pos vb) (1 / 100000) then [pos va]
     else filter (fun p => negb (fuzzyEqual p (pos vb) (1 / 100000))) (crossPoints va vb vb vc) ++
          map fst (overlapsOf va vb vb vc)).

Lemma testAndAdd_R pl out a : (3 <= length (vertexes pl))%nat -> (a < length (vertexes pl))%nat ->
  testAndAddIntersect pl out a (nextI pl a) (nextI pl (nextI pl a)) = Ok (out ++ consecutivePoints pl (a, nextI pl a)).
Proof.
  intros Hn Ha.
  assert (N : forall i, (i < length (vertexes pl))%nat -> (nextI pl i < length (vertexes pl))%nat).
  { intros i Hi. unfold nextI, nextWrappingIndex. destruct (Nat.eqb_spec (S i) (length (vertexes pl))); lia. }
  unfold testAndAddIntersect. rewrite !at_get by auto. cbn [bind].
  unfold consecutivePoints, crossPoints, overlapsOf. rewrite prec_R.
  destruct (fuzzyEqual (pos (at_ pl a)) _ _); [reflexivity|].
  destruct (intrPlineSegs _ _ _ _) as [|p|p q|p q|p q]; cbn [filter map app fst]; rewrite ?app_nil_r; try reflexivity.
  - destruct (negb _); reflexivity.
  - destruct (negb (fuzzyEqual p _ _)), (negb (fuzzyEqual q _ _)); reflexivity.
Qed.

Theorem C46_consecutive_pairs pl out : (3 <= length (vertexes pl))%nat ->
  localSelfIntersects pl out = Ok (out ++ flat_map (consecutivePoints pl) (consecutivePairs pl)) /\ NoDup (consecutivePairs pl) /\ forall a b, In (a, b) (consecutivePairs pl) <-> (a < segCount pl)%nat /\ (b < segCount pl)%nat /\ b = nextI pl a.
Proof.
  intros Hn. set (n := length (vertexes pl)) in *.
  assert (Fold : forall l out, (forall i, In i l -> (i < n)%nat) ->
     mfold (fun out i => testAndAddIntersect pl out i (nextI pl i) (nextI pl (nextI pl i))) l out =
     Ok (out ++ flat_map (consecutivePoints pl) (map (fun i => (i, nextI pl i)) l))).
  { induction l as [|i l IH]; intros o Hl; [cbn [mfold flat_map map]; now rewrite app_nil_r|].
    cbn [mfold map flat_map]. rewrite testAndAdd_R by (auto; apply Hl; now left). cbn [bind]. rewrite IH by (intros; apply Hl; now right).
    now rewrite <- app_assoc. }
  assert (Nx : forall i, (S i < n)%nat -> nextI pl i = S i).
  { intros i Hi. unfold nextI, nextWrappingIndex. fold n. destruct (Nat.eqb_spec (S i) n); lia. }
  assert (Nl : nextI pl (n - 1) = 0%nat).
  { unfold nextI, nextWrappingIndex. fold n. destruct (Nat.eqb_spec (S (n - 1)) n); lia. }
  split; [|split].
  - unfold localSelfIntersects, size. fold n. destruct (Nat.ltb_spec n 2); [lia|]. destruct (Nat.eqb_spec n 2); [lia|].
    assert (E2 : mfold (fun out i => testAndAddIntersect pl out (i - 2) (i - 1) i) (seq 2 (n - 2)) out =
      Ok (out ++ flat_map (consecutivePoints pl) (map (fun i => (i, nextI pl i)) (seq 0 (n - 2))))).
    { rewrite <- Fold by (intros i Hi; apply in_seq in Hi; lia).
      rewrite <- !seq_shift, !map_map, mfold_map. apply mfold_ext_in. intros i o Hi. apply in_seq in Hi.
      rewrite (Nx i) by lia. rewrite Nx by lia. f_equal; lia. }
    rewrite E2. cbn [bind]. unfold consecutivePairs. fold n. destruct (isClosed pl); [|reflexivity].
    rewrite <- Fold by (intros i Hi; apply in_seq in Hi; lia).
    replace (seq 0 n) with (seq 0 (n - 2) ++ [(n - 2)%nat; (n - 1)%nat]).
    2:{ replace n with (n - 2 + 2)%nat at 4 by lia. rewrite seq_app. cbn [seq Nat.add]. do 2 f_equal. f_equal. lia. }
    rewrite mfold_app, Fold by (intros i Hi; apply in_seq in Hi; lia). cbn [bind mfold].
    rewrite (Nx (n - 2)%nat) by lia. replace (S (n - 2)) with (n - 1)%nat by lia. rewrite Nl, (Nx 0%nat) by lia.
    destruct (testAndAddIntersect pl _ (n - 2) (n - 1) 0) as [o| |]; cbn [bind]; try reflexivity.
    destruct (testAndAddIntersect pl o (n - 1) 0 1); reflexivity.
  - unfold consecutivePairs. fold n. apply FinFun.Injective_map_NoDup; [intros x y E; now injection E|]. destruct (isClosed pl); apply seq_NoDup.
  - intros a b. rewrite !segCount_eq by (fold n; lia). fold n. unfold consecutivePairs. fold n. rewrite in_map_iff. split.
    + intros (i & E & Hi). injection E as <- <-. destruct (isClosed pl); apply in_seq in Hi.
      * split; [lia|]. split; [|auto]. unfold nextI, nextWrappingIndex. fold n. destruct (Nat.eqb_spec (S i) n); lia.
      * rewrite Nx by lia. lia.
    + intros (Ha & Hb & ->). exists a. split; [auto|]. destruct (isClosed pl); apply in_seq; [lia|]. rewrite Nx in Hb by lia. lia.
Qed.

(** shorter polylines: nothing is reported, except that a closed polyline of two segments retracing each other (opposite bulges up to
    1e-8) is reported as overlapping itself at both vertices *)
Theorem C46_small pl out : (length (vertexes pl) < 3)%nat ->
  (localSelfIntersects pl out = Ok out /\ ~ (isClosed pl = true /\ length (vertexes pl) = 2%nat /\ Rabs (bulge (at_ pl 0) + bulge (at_ pl 1)) < 1 / 100000000)) \/
  (localSelfIntersects pl out = Ok (out ++ [mkIntr 0 1 (pos (at_ pl 1)); mkIntr 1 0 (pos (at_ pl 0))]) /\ isClosed pl = true /\ length (vertexes pl) = 2%nat /\ Rabs (bulge (at_ pl 0) + bulge (at_ pl 1)) < 1 / 100000000).
Proof.
  intros Hn. unfold localSelfIntersects, size. destruct (Nat.ltb_spec (length (vertexes pl)) 2); [left; split; [reflexivity|lia]|].
  destruct (Nat.eqb_spec (length (vertexes pl)) 2) as [E|]; [|lia].
  destruct (isClosed pl) eqn:Ec; [|left; split; [reflexivity|intros (H1 & _); discriminate]].
  rewrite !at_get by lia. cbn [bind]. destruct (fuzzyEqualR _ _ _) eqn:Ef.
  - right. split; [reflexivity|]. split; [auto|]. split; [auto|]. rewrite thr_R in Ef. apply fuzzyEqualR_R in Ef. rcbn. 
    replace (bulge (at_ pl 0) + bulge (at_ pl 1)) with (bulge (at_ pl 0) - - bulge (at_ pl 1)) by (cbn; lra). exact Ef.
  - left. split; [reflexivity|]. intros (_ & _ & H'). rewrite thr_R in Ef. apply not_true_iff_false in Ef. apply Ef. apply fuzzyEqualR_R.
    replace (bulge (at_ pl 0) + bulge (at_ pl 1)) with (bulge (at_ pl 0) - - bulge (at_ pl 1)) in H' by (cbn; lra). exact H'.
Qed.
