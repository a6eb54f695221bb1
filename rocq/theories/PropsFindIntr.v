(** * C30: findIntersects against brute force *)
From Coq Require Import ZArith Reals Lra Lia List Bool Arith Permutation.
From Verif Require Import Base Num MathUtils PlineSegment SpatialIndex IndexTree IndexQuery PropsIndex Polyline Intersects RGeom Spec PropsMath ArcGeom PropsSegment PropsIntr PropsPlineIntr PropsPolyline PropsPlineIndex.
Import ListNotations.
Open Scope R_scope.

(** ** Specification *)

(** isolated intersection points and overlapping stretches of one pair of segments *)
Definition crossPoints (v1 v2 u1 u2 : vertex) : list vec :=
  match intrPlineSegs v1 v2 u1 u2 with OneIntersect p => [p] | TwoIntersects p q => [p; q] | _ => [] end.
Definition overlapsOf (v1 v2 u1 u2 : vertex) : list (vec * vec) :=
  match intrPlineSegs v1 v2 u1 u2 with SegmentOverlap p q | ArcOverlap p q => [(p, q)] | _ => [] end.

(** equal positions up to 1e-8 per coordinate *)
Definition same (p q : vec) : bool := fuzzyEqual p q (1 / 100000000).

Section Spec.
Context (pl1 pl2 : polyline).
Local Notation s1 i := (at_ pl1 i).
Local Notation e1 i := (at_ pl1 (nextI pl1 i)).
Local Notation s2 i := (at_ pl2 i).
Local Notation e2 i := (at_ pl2 (nextI pl2 i)).

(** the crossing points of segment i1 of pl1 with segment i2 of pl2 other than their start points *)
Definition pairPoints (e : nat * nat) : list pIntr :=
  let '(i1, i2) := e in
  map (mkIntr i1 i2)
    (filter (fun p => negb (same (pos (s1 i1)) p || same (pos (s2 i2)) p)) (crossPoints (s1 i1) (e1 i1) (s2 i2) (e2 i2))).
(** the overlapping stretches *)
Definition pairCoinc (e : nat * nat) : list cIntr :=
  let '(i1, i2) := e in
  map (fun pq => mkCIntr i1 i2 (fst pq) (snd pq)) (overlapsOf (s1 i1) (e1 i1) (s2 i2) (e2 i2)).

(** segments (a, b) meet at a vertex where an overlapping stretch begins or ends *)
Definition besideOverlap (tested : list (nat * nat)) (a b : nat) : Prop :=
  exists i1 i2 p q, In (i1, i2) tested /\ In (p, q) (overlapsOf (s1 i1) (e1 i1) (s2 i2) (e2 i2)) /\
    (((same (pos (s1 i1)) p || same (pos (s1 i1)) q = true) /\ a = prevWrappingIndex i1 (length (vertexes pl1)) /\ b = i2) \/
     ((same (pos (s2 i2)) p || same (pos (s2 i2)) q = true) /\ a = i1 /\ b = prevWrappingIndex i2 (length (vertexes pl2)))).
(** the crossing point is already the end of an overlapping stretch *)
Definition redundant (tested : list (nat * nat)) (x : pIntr) : Prop :=
  besideOverlap tested (sIndex1 x) (sIndex2 x) /\
  (same (ipos x) (pos (e1 (sIndex1 x))) = true \/ same (ipos x) (pos (e2 (sIndex2 x))) = true).
End Spec.

(** ** One pair *)
Definition pairDups (pl1 pl2 : polyline) (e : nat * nat) : list (nat * nat) :=
  let '(i1, i2) := e in
  flat_map (fun pq =>
    (if same (pos (at_ pl1 i1)) (fst pq) || same (pos (at_ pl1 i1)) (snd pq) then [(prevWrappingIndex i1 (length (vertexes pl1)), i2)] else []) ++
    (if same (pos (at_ pl2 i2)) (fst pq) || same (pos (at_ pl2 i2)) (snd pq) then [(i1, prevWrappingIndex i2 (length (vertexes pl2)))] else []))
    (overlapsOf (at_ pl1 i1) (at_ pl1 (nextI pl1 i1)) (at_ pl2 i2) (at_ pl2 (nextI pl2 i2))).

Lemma findPair_R pl1 pl2 i1 i2 st : (2 <= length (vertexes pl1))%nat -> (i1 < segCount pl1)%nat ->
  findPair pl1 pl2 i2 (at_ pl2 i2) (at_ pl2 (nextI pl2 i2)) st i1 =
  Ok (mkFind (fIntrs st ++ pairPoints pl1 pl2 (i1, i2)) (fCoinc st ++ pairCoinc pl1 pl2 (i1, i2)) (fDups st ++ pairDups pl1 pl2 (i1, i2))).
Proof.
  intros Hn Hi. destruct (seg_in_range pl1 i1 Hn Hi) as [R1 R2].
  unfold findPair. change (nextWrappingIndex i1 (size pl1)) with (nextI pl1 i1). rewrite !at_get by auto. cbn [bind].
  unfold pairPoints, pairCoinc, pairDups, crossPoints, overlapsOf, same. rcbn.
  destruct (intrPlineSegs _ _ _ _) as [|p|p q|p q|p q]; cbn [filter map flat_map]; rewrite ?app_nil_r; try (destruct st; reflexivity).
  - destruct (negb _); reflexivity.
  - destruct (negb (fuzzyEqual (pos (at_ pl1 i1)) p _ || _)), (negb (fuzzyEqual (pos (at_ pl1 i1)) q _ || _)); reflexivity.
Qed.

Lemma findPairs_R pl1 pl2 i2 l : (2 <= length (vertexes pl1))%nat -> (forall i, In i l -> (i < segCount pl1)%nat) -> forall st,
  mfold (findPair pl1 pl2 i2 (at_ pl2 i2) (at_ pl2 (nextI pl2 i2))) l st =
  let t := map (fun i1 => (i1, i2)) l in
  Ok (mkFind (fIntrs st ++ flat_map (pairPoints pl1 pl2) t) (fCoinc st ++ flat_map (pairCoinc pl1 pl2) t) (fDups st ++ flat_map (pairDups pl1 pl2) t)).
Proof.
  intros Hn. induction l as [|i l IH]; intros Hl st.
  - cbn [mfold map flat_map]. rewrite !app_nil_r. now destruct st.
  - cbn [mfold]. rewrite findPair_R by (auto; apply Hl; now left). cbn [bind]. rewrite IH by (intros; apply Hl; now right).
    cbn [fIntrs fCoinc fDups map flat_map]. now rewrite <- !app_assoc.
Qed.

Lemma find_fold pl1 pl2 ix (hits : nat -> list nat) : (2 <= length (vertexes pl1))%nat -> (2 <= length (vertexes pl2))%nat ->
  (forall i2, (i2 < segCount pl2)%nat -> query defaultNodeSize ix (Fin (xMin (sbox pl2 i2) - 1 / 100000)) (Fin (yMin (sbox pl2 i2) - 1 / 100000))
      (Fin (xMax (sbox pl2 i2) + 1 / 100000)) (Fin (yMax (sbox pl2 i2) + 1 / 100000)) [] = Ok (hits i2)) ->
  (forall i2 i1, In i1 (hits i2) -> (i1 < segCount pl1)%nat) ->
  forall l st, (forall i j, In (i, j) l -> In (i, j) (segs pl2)) ->
  let t := flat_map (fun e => map (fun i1 => (i1, fst e)) (hits (fst e))) l in
  foldStop (findSegVisitor defaultNodeSize pl1 pl2 ix) l (Ok st) =
  Ok (mkFind (fIntrs st ++ flat_map (pairPoints pl1 pl2) t) (fCoinc st ++ flat_map (pairCoinc pl1 pl2) t) (fDups st ++ flat_map (pairDups pl1 pl2) t)).
Proof.
  intros Hn1 Hn2 Hq Hh. induction l as [|[i2 j2] l IH]; intros st Hl t.
  - unfold t. cbn [foldStop flat_map]. rewrite !app_nil_r. now destruct st.
  - assert (I : In (i2, j2) (segs pl2)) by (apply Hl; now left). apply segs_iff in I. destruct I as (_ & Hi2 & ->).
    destruct (seg_in_range pl2 i2 Hn2 Hi2) as [R1 R2].
    assert (Es : findSegVisitor defaultNodeSize pl1 pl2 ix (Ok st) i2 (nextI pl2 i2) =
      (true, mfold (findPair pl1 pl2 i2 (at_ pl2 i2) (at_ pl2 (nextI pl2 i2))) (hits i2) st)).
    { unfold findSegVisitor. cbn [bind]. rewrite !at_get by auto. cbn [bind]. f_equal.
      match goal with |- (let! _ := ?m in _) = _ => assert (Em : m = Ok (hits i2)) end.
      { rewrite <- (Hq i2 Hi2). unfold sbox. rewrite prec_R. reflexivity. }
      rewrite Em. reflexivity. }
    cbn [foldStop]. rewrite Es, findPairs_R by (auto; intros; now apply (Hh i2)). cbv zeta.
    rewrite IH by (intros; apply Hl; now right). cbn [fIntrs fCoinc fDups]. unfold t. cbn [flat_map fst].
    rewrite !flat_map_app, <- !app_assoc. reflexivity.
Qed.

Lemma removeIf_filter {A} (p : A -> res bool) (f : A -> bool) l : (forall a, In a l -> p a = Ok (f a)) -> removeIf p l = Ok (filter (fun a => negb (f a)) l).
Proof.
  induction l as [|a l IH]; intros H; [reflexivity|]. cbn [removeIf filter]. rewrite H by now left. cbn [bind].
  rewrite IH by (intros; apply H; now right). cbn [bind]. destruct (f a); reflexivity.
Qed.

Lemma pairMem_In a b l : pairMem a b l = true <-> In (a, b) l.
Proof.
  unfold pairMem. rewrite existsb_exists. split.
  - intros ([x y] & H & E). apply andb_true_iff in E. destruct E as [E1 E2]. apply Nat.eqb_eq in E1, E2. now subst.
  - intros H. exists (a, b). split; auto. now rewrite !Nat.eqb_refl.
Qed.

(** ** C30 *)

(** findIntersects tests every pair of segments whose boxes come within 1e-5 exactly once ([tested]) and no other pair, reports all
    overlapping stretches of those pairs, and all their crossing points except those at the start of one of the two segments and those
    that are already an end of an overlapping stretch. *)
Theorem C30_find_intersects pl1 pl2 : indexable pl1 -> (2 <= length (vertexes pl2))%nat ->
  exists ix tested intrs coincs,
    createApproxSpatialIndex pl1 = Ok ix /\ findIntersects defaultNodeSize pl1 pl2 ix [] [] = Ok (intrs, coincs) /\
    NoDup tested /\
    (forall i1 i2, In (i1, i2) tested <-> (i1 < segCount pl1)%nat /\ (i2 < segCount pl2)%nat /\ boxesMeet (sbox pl2 i2) (1 / 100000) (sbox pl1 i1)) /\
    coincs = flat_map (pairCoinc pl1 pl2) tested /\
    exists keep, intrs = filter keep (flat_map (pairPoints pl1 pl2) tested) /\
      forall x, In x (flat_map (pairPoints pl1 pl2) tested) -> keep x = false <-> redundant pl1 pl2 tested x.
Proof.
  intros Hix Hn2. pose proof Hix as (Hn1 & _). destruct (pline_index pl1 Hix) as (ix & Ecr & HQ & _).
  set (hits := fun i2 => match query defaultNodeSize ix (Fin (xMin (sbox pl2 i2) - 1 / 100000)) (Fin (yMin (sbox pl2 i2) - 1 / 100000))
      (Fin (xMax (sbox pl2 i2) + 1 / 100000)) (Fin (yMax (sbox pl2 i2) + 1 / 100000)) [] with Ok l => l | _ => [] end).
  assert (Hhits : forall i2, query defaultNodeSize ix (Fin (xMin (sbox pl2 i2) - 1 / 100000)) (Fin (yMin (sbox pl2 i2) - 1 / 100000))
      (Fin (xMax (sbox pl2 i2) + 1 / 100000)) (Fin (yMax (sbox pl2 i2) + 1 / 100000)) [] = Ok (hits i2) /\ NoDup (hits i2) /\
      forall i1, In i1 (hits i2) <-> (i1 < segCount pl1)%nat /\ boxesMeet (sbox pl2 i2) (1 / 100000) (sbox pl1 i1)).
  { intros i2. destruct (HQ (sbox pl2 i2) (1 / 100000)) as (l & Hnd & Hl & Hv).
    assert (Eq : query defaultNodeSize ix (Fin (xMin (sbox pl2 i2) - 1 / 100000)) (Fin (yMin (sbox pl2 i2) - 1 / 100000))
      (Fin (xMax (sbox pl2 i2) + 1 / 100000)) (Fin (yMax (sbox pl2 i2) + 1 / 100000)) [] = Ok l).
    { unfold query. rewrite Hv. rewrite (runVisitor_true (fun rs i => rs ++ [i])). cbn [snd]. f_equal.
      assert (G : forall (l a : list nat), fold_left (fun rs i => rs ++ [i]) l a = a ++ l).
      { clear. induction l as [|x l IH]; intros a; cbn [fold_left]; [now rewrite app_nil_r|]. rewrite IH. now rewrite <- app_assoc. }
      now rewrite G. }
    unfold hits. rewrite Eq. auto. }
  set (tested := flat_map (fun e : nat * nat => map (fun i1 => (i1, fst e)) (hits (fst e))) (segs pl2)).
  assert (Htested : forall i1 i2, In (i1, i2) tested <-> (i1 < segCount pl1)%nat /\ (i2 < segCount pl2)%nat /\ boxesMeet (sbox pl2 i2) (1 / 100000) (sbox pl1 i1)).
  { intros i1 i2. unfold tested. rewrite in_flat_map. split.
    - intros ([a b] & Hs & Hm). cbn [fst] in Hm. apply in_map_iff in Hm. destruct Hm as (k & E & Hk). injection E as <- <-.
      apply segs_iff in Hs. apply (proj2 (proj2 (Hhits a))) in Hk. tauto.
    - intros (H1 & H2 & H3). exists (i2, nextI pl2 i2). split; [apply segs_iff; auto|]. cbn [fst]. apply in_map_iff. exists i1. split; [auto|].
      apply (proj2 (proj2 (Hhits i2))). auto. }
  assert (Hfold := find_fold pl1 pl2 ix hits Hn1 Hn2 (fun i2 _ => proj1 (Hhits i2))
     (fun i2 i1 H => proj1 (proj1 (proj2 (proj2 (Hhits i2)) i1) H)) (segs pl2) (mkFind [] [] []) (fun i j H => H)). cbv zeta in Hfold.
  fold tested in Hfold. cbn [fIntrs fCoinc fDups app] in Hfold.
  set (dups := flat_map (pairDups pl1 pl2) tested) in *.
  set (isDup := fun x : pIntr => pairMem (sIndex1 x) (sIndex2 x) dups &&
     (same (ipos x) (pos (at_ pl1 (nextI pl1 (sIndex1 x)))) || same (ipos x) (pos (at_ pl2 (nextI pl2 (sIndex2 x)))))).
  set (pts := flat_map (pairPoints pl1 pl2) tested) in *.
  assert (Hpts : forall x, In x pts -> In (sIndex1 x, sIndex2 x) tested).
  { intros x Hx. unfold pts in Hx. apply in_flat_map in Hx. destruct Hx as ([i1 i2] & Ht & Hx). unfold pairPoints in Hx.
    apply in_map_iff in Hx. destruct Hx as (p & <- & _). exact Ht. }
  exists ix, tested, (filter (fun x => negb (isDup x)) pts), (flat_map (pairCoinc pl1 pl2) tested).
  split; [exact Ecr|]. split.
  { unfold findIntersects. rewrite C21_visit_order, Hfold. cbn [bind fIntrs fCoinc fDups].
    rewrite (removeIf_filter _ isDup); [reflexivity|]. intros x Hx. apply Hpts, Htested in Hx. destruct Hx as (H1 & H2 & _).
    destruct (seg_in_range pl1 _ Hn1 H1) as [_ R1]. destruct (seg_in_range pl2 _ Hn2 H2) as [_ R2].
    unfold isDuplicate, isDup. destruct (pairMem _ _ dups); cbn [negb andb]; [|reflexivity].
    change (nextWrappingIndex (sIndex1 x) (size pl1)) with (nextI pl1 (sIndex1 x)). change (nextWrappingIndex (sIndex2 x) (size pl2)) with (nextI pl2 (sIndex2 x)).
    rewrite !at_get by auto. cbn [bind]. unfold same. rewrite thr_R. destruct (fuzzyEqual (ipos x) (pos (at_ pl1 _)) _); reflexivity. }
  split.
  { unfold tested. generalize (C21_each_once pl2). 
    assert (Hfst : forall i j j', In (i, j) (segs pl2) -> In (i, j') (segs pl2) -> j = j').
    { intros i j j' Ha Hb. apply segs_iff in Ha, Hb. destruct Ha as (_ & _ & ->), Hb as (_ & _ & ->). reflexivity. }
    revert Hfst. generalize (segs pl2) as l. clear -Hhits. induction l as [|[i j] l IH]; intros Hf Hnd; [constructor|].
    inversion Hnd as [|? ? Hni Hnd']. subst. cbn [flat_map fst].
    assert (G : forall (a b : list (nat * nat)), NoDup a -> NoDup b -> (forall x, In x a -> ~ In x b) -> NoDup (a ++ b)).
    { clear. induction a as [|x a IH]; intros b Ha Hb H; [auto|]. inversion Ha. subst. cbn [app]. constructor.
      - rewrite in_app_iff. intros [Q|Q]; [auto|]. apply (H x); auto. now left.
      - apply IH; auto. intros y Hy. apply H. now right. }
    apply G.
    - apply FinFun.Injective_map_NoDup; [intros x y E; now injection E|]. apply Hhits.
    - apply IH; auto. intros; eapply Hf; right; eauto.
    - intros [a b] Ha Hb. apply in_map_iff in Ha. destruct Ha as (k & E & _). injection E as <- <-.
      apply in_flat_map in Hb. destruct Hb as ([i' j'] & Hin & Hm). cbn [fst] in Hm. apply in_map_iff in Hm. destruct Hm as (k' & E & _). injection E as <- <-.
      apply Hni. assert (j = j') by (apply (Hf i'); [now left|now right]). now subst. }
  split; [exact Htested|]. split; [reflexivity|].
  exists (fun x => negb (isDup x)). split; [reflexivity|]. intros x Hx. rewrite negb_false_iff. unfold isDup, redundant. rewrite andb_true_iff, orb_true_iff, pairMem_In.
  assert (Hd : In (sIndex1 x, sIndex2 x) dups <-> besideOverlap pl1 pl2 tested (sIndex1 x) (sIndex2 x)); [|now rewrite Hd].
  generalize (sIndex1 x) as a. generalize (sIndex2 x) as b. intros b a. unfold dups, besideOverlap. rewrite in_flat_map. split.
  - intros ([i1 i2] & Ht & Hd). unfold pairDups in Hd. apply in_flat_map in Hd. destruct Hd as ([p q] & Ho & Hd). exists i1, i2, p, q. split; [auto|]. split; [auto|].
    cbn [fst snd] in Hd. apply in_app_or in Hd. destruct Hd as [Hd|Hd].
    + left. destruct (_ || _) in Hd |- *; [|destruct Hd]. destruct Hd as [Hd|[]]. injection Hd as <- <-. auto.
    + right. destruct (_ || _) in Hd |- *; [|destruct Hd]. destruct Hd as [Hd|[]]. injection Hd as <- <-. auto.
  - intros (i1 & i2 & p & q & Ht & Ho & Hc). exists (i1, i2). split; [auto|]. unfold pairDups. apply in_flat_map. exists (p, q). split; [auto|].
    cbn [fst snd]. apply in_or_app. destruct Hc as [(E & -> & ->)|(E & -> & ->)]; [left|right]; rewrite E; now left.
Qed.

(** no pair of segments that share a point is missed, and every non-empty pairwise answer of such a pair is in the output *)
Theorem C30_no_intersect_lost pl1 pl2 i1 i2 q : indexable pl1 -> (2 <= length (vertexes pl2))%nat ->
  (i1 < segCount pl1)%nat -> (i2 < segCount pl2)%nat -> Rabs (bulge (at_ pl1 i1)) <= 1 -> Rabs (bulge (at_ pl2 i2)) <= 1 ->
  onSeg (at_ pl1 i1) (at_ pl1 (nextI pl1 i1)) q -> onSeg (at_ pl2 i2) (at_ pl2 (nextI pl2 i2)) q ->
  exists ix tested intrs coincs,
    createApproxSpatialIndex pl1 = Ok ix /\ findIntersects defaultNodeSize pl1 pl2 ix [] [] = Ok (intrs, coincs) /\ In (i1, i2) tested /\
    (forall x, In x (pairCoinc pl1 pl2 (i1, i2)) -> In x coincs) /\
    (forall x, In x (pairPoints pl1 pl2 (i1, i2)) -> In x intrs \/ redundant pl1 pl2 tested x).
Proof.
  intros Hix Hn2 H1 H2 B1 B2 O1 O2. destruct (C30_find_intersects pl1 pl2 Hix Hn2) as (ix & tested & intrs & coincs & E1 & E2 & _ & Ht & -> & keep & -> & Hk).
  assert (It : In (i1, i2) tested).
  { apply Ht. split; [auto|]. split; [auto|]. apply (boxes_of_crossing _ _ _ _ q); auto. lra. }
  exists ix, tested. do 2 eexists. split; [exact E1|]. split; [exact E2|]. split; [auto|]. split.
  - intros x Hx. apply in_flat_map. exists (i1, i2). auto.
  - intros x Hx. assert (Hin : In x (flat_map (pairPoints pl1 pl2) tested)) by (apply in_flat_map; exists (i1, i2); auto).
    destruct (keep x) eqn:E; [left; apply filter_In; auto|right; now apply Hk].
Qed.

(** every reported crossing or stretch is the pairwise answer for the two segments it names *)
Theorem C30_sound pl1 pl2 ix intrs coincs : indexable pl1 -> (2 <= length (vertexes pl2))%nat ->
  createApproxSpatialIndex pl1 = Ok ix -> findIntersects defaultNodeSize pl1 pl2 ix [] [] = Ok (intrs, coincs) ->
  (forall x, In x intrs -> (sIndex1 x < segCount pl1)%nat /\ (sIndex2 x < segCount pl2)%nat /\
     In (ipos x) (crossPoints (at_ pl1 (sIndex1 x)) (at_ pl1 (nextI pl1 (sIndex1 x))) (at_ pl2 (sIndex2 x)) (at_ pl2 (nextI pl2 (sIndex2 x))))) /\
  (forall x, In x coincs -> (cIndex1 x < segCount pl1)%nat /\ (cIndex2 x < segCount pl2)%nat /\
     In (cpoint1 x, cpoint2 x) (overlapsOf (at_ pl1 (cIndex1 x)) (at_ pl1 (nextI pl1 (cIndex1 x))) (at_ pl2 (cIndex2 x)) (at_ pl2 (nextI pl2 (cIndex2 x))))).
Proof.
  intros Hix Hn2 E1 E2. destruct (C30_find_intersects pl1 pl2 Hix Hn2) as (ix' & tested & intrs' & coincs' & E1' & E2' & _ & Ht & Hc & keep & Hi & _).
  assert (ix' = ix) by congruence. subst ix'. assert (intrs' = intrs /\ coincs' = coincs) as [-> ->] by (rewrite E2 in E2'; injection E2' as <- <-; auto). subst. split.
  - intros x Hx. apply filter_In in Hx. destruct Hx as [Hx _]. apply in_flat_map in Hx. destruct Hx as ([i1 i2] & Hin & Hx).
    unfold pairPoints in Hx. apply in_map_iff in Hx. destruct Hx as (p & <- & Hp). apply filter_In in Hp. cbn [sIndex1 sIndex2 ipos].
    apply Ht in Hin. tauto.
  - intros x Hx. apply in_flat_map in Hx. destruct Hx as ([i1 i2] & Hin & Hx).
    unfold pairCoinc in Hx. apply in_map_iff in Hx. destruct Hx as ([p q] & <- & Hp). cbn [cIndex1 cIndex2 cpoint1 cpoint2 fst snd].
    apply Ht in Hin. tauto.
Qed.

(** non-vacuity: a triangle is indexable, and so is the boundary with 40 vertices on a parabola *)
Example C30_triangle : indexable (mkPline true [mkVertex 0 0 0; mkVertex 1 0 0; mkVertex 0 1 0]).
Proof. unfold indexable, segCount. cbn. split; [lia|]. split; [lia|]. left. lia. Qed.
Example C30_parabola : indexable (mkPline true (map (fun i => mkVertex (INR i) (INR i * INR i) 0) (seq 0 40))).
Proof.
  unfold indexable. cbn [vertexes]. rewrite map_length, seq_length. split; [lia|]. split; [lia|]. right.
  assert (In (mkVertex (INR 0) (INR 0 * INR 0) 0) (map (fun i => mkVertex (INR i) (INR i * INR i) 0) (seq 0 40)) /\
          In (mkVertex (INR 1) (INR 1 * INR 1) 0) (map (fun i => mkVertex (INR i) (INR i * INR i) 0) (seq 0 40))) as [I0 I1].
  { split; apply in_map_iff; [exists 0%nat|exists 1%nat]; (split; [reflexivity|apply in_seq; lia]). }
  split; do 2 eexists; (split; [exact I0|]; split; [exact I1|]); unfold px, py, mkVertex; cbn [pos vx vy INR]; lra.
Qed.
