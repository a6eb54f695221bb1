(** * C70, continued: intersections of translated polylines *)
From Coq Require Import ZArith Reals Lra Lia List Bool Arith Permutation.
From Verif Require Import Base Num MathUtils PlineSegment SpatialIndex Polyline Intersects RGeom Spec PropsMath ArcGeom PropsPolyline PropsPlineIndex PropsFindIntr PropsArea PropsRegion PropsSimilar PropsSimilarPairs.
Import ListNotations.
Open Scope R_scope.

Section Find.
Variable v : vec.
Local Notation im := (image 1 v).
Local Notation imw := (imv 1 v).
Local Notation imP := (imageOf 1 v).

(** the same intersection / stretch, moved *)
Definition shiftIntr (x : pIntr) : pIntr := mkIntr (sIndex1 x) (sIndex2 x) (shift v (ipos x)).
Definition shiftCIntr (x : cIntr) : cIntr := mkCIntr (cIndex1 x) (cIndex2 x) (shift v (cpoint1 x)) (shift v (cpoint2 x)).

Lemma segs_im pl : segs (imP pl) = segs pl.
Proof. unfold segs. rewrite !imP_closed, ?imP_vertexes, ?map_length, ?imP_size. reflexivity. Qed.
Lemma segCount_im pl : segCount (imP pl) = segCount pl.
Proof. unfold segCount. now rewrite segs_im. Qed.
Lemma len_im pl : length (vertexes (imP pl)) = length (vertexes pl).
Proof. rewrite imP_vertexes. apply map_length. Qed.
Lemma nextI_im pl i : nextI (imP pl) i = nextI pl i.
Proof. unfold nextI. now rewrite len_im. Qed.
Lemma same_im p q : same (im p) (im q) = same p q.
Proof. apply fuzzy_im. Qed.

Lemma cross_im v1 v2 u1 u2 : crossPoints (imw v1) (imw v2) (imw u1) (imw u2) = map im (crossPoints v1 v2 u1 u2).
Proof. unfold crossPoints. rewrite C70_translate_segments. now destruct (intrPlineSegs v1 v2 u1 u2). Qed.
Lemma overlaps_im v1 v2 u1 u2 : overlapsOf (imw v1) (imw v2) (imw u1) (imw u2) = map (fun pq => (im (fst pq), im (snd pq))) (overlapsOf v1 v2 u1 u2).
Proof. unfold overlapsOf. rewrite C70_translate_segments. now destruct (intrPlineSegs v1 v2 u1 u2). Qed.

Lemma filter_map_c {A B} (f : A -> B) (g : B -> bool) (h : A -> bool) l : (forall a, g (f a) = h a) -> filter g (map f l) = map f (filter h l).
Proof. intros H. induction l as [|a l IH]; [reflexivity|]. cbn [map filter]. rewrite H, IH. now destruct (h a). Qed.

Lemma indexable_im pl : indexable pl -> indexable (imP pl).
Proof.
  intros (H1 & H2 & H3). unfold indexable. rewrite len_im, segCount_im. split; [auto|]. split; [auto|]. destruct H3 as [H3|[(a & b & Ha & Hb & L) (c & d & Hc & Hd & L')]]; [now left|right].
  assert (G : forall x, In x (vertexes pl) -> In (imw x) (vertexes (imP pl))) by (intros x Hx; rewrite imP_vertexes; now apply in_map).
  split; [exists (imw a), (imw b)|exists (imw c), (imw d)]; (split; [now apply G|]; split; [now apply G|]); unfold px, py, imv, image in *; cbn [pos vx vy] in *; lra.
Qed.

Context (pl1 pl2 : polyline) (Hn1 : (2 <= length (vertexes pl1))%nat) (Hn2 : (2 <= length (vertexes pl2))%nat).

Lemma ats pl i : (2 <= length (vertexes pl))%nat -> (i < segCount pl)%nat -> at_ (imP pl) i = imw (at_ pl i) /\ at_ (imP pl) (nextI (imP pl) i) = imw (at_ pl (nextI pl i)).
Proof.
  intros Hn Hi. destruct (seg_in_range pl i Hn Hi) as [R1 R2]. rewrite nextI_im. split; apply at_im; assumption.
Qed.
Lemma sbox_im pl i : (2 <= length (vertexes pl))%nat -> (i < segCount pl)%nat -> sbox (imP pl) i = imAABB v (sbox pl i).
Proof. intros Hn Hi. unfold sbox. destruct (ats pl i Hn Hi) as [-> ->]. apply box_im. Qed.

Lemma points_im i1 i2 : (i1 < segCount pl1)%nat -> (i2 < segCount pl2)%nat -> pairPoints (imP pl1) (imP pl2) (i1, i2) = map shiftIntr (pairPoints pl1 pl2 (i1, i2)).
Proof.
  intros L1 L2. unfold pairPoints. destruct (ats pl1 i1 Hn1 L1) as [-> ->], (ats pl2 i2 Hn2 L2) as [-> ->]. rewrite cross_im.
  rewrite (filter_map_c im _ (fun p => negb (same (pos (at_ pl1 i1)) p || same (pos (at_ pl2 i2)) p))) by (intros a; cbn [imv pos]; now rewrite !same_im).
  rewrite !map_map. apply map_ext. intros a. unfold shiftIntr. cbn [sIndex1 sIndex2 ipos]. now rewrite shift_image.
Qed.
Lemma coinc_im i1 i2 : (i1 < segCount pl1)%nat -> (i2 < segCount pl2)%nat -> pairCoinc (imP pl1) (imP pl2) (i1, i2) = map shiftCIntr (pairCoinc pl1 pl2 (i1, i2)).
Proof.
  intros L1 L2. unfold pairCoinc. destruct (ats pl1 i1 Hn1 L1) as [-> ->], (ats pl2 i2 Hn2 L2) as [-> ->]. rewrite overlaps_im.
  rewrite !map_map. apply map_ext. intros a. unfold shiftCIntr. cbn [cIndex1 cIndex2 cpoint1 cpoint2 fst snd]. now rewrite !shift_image.
Qed.

Lemma beside_im t t' a b : (forall e, In e t <-> In e t') -> (forall i1 i2, In (i1, i2) t -> (i1 < segCount pl1)%nat /\ (i2 < segCount pl2)%nat) ->
  besideOverlap (imP pl1) (imP pl2) t' a b <-> besideOverlap pl1 pl2 t a b.
Proof.
  intros Ht Hr. unfold besideOverlap. rewrite !len_im. split.
  - intros (i1 & i2 & p & q & Hin & Ho & H). apply Ht in Hin. destruct (Hr _ _ Hin) as [L1 L2].
    destruct (ats pl1 i1 Hn1 L1) as [E1 E2], (ats pl2 i2 Hn2 L2) as [E3 E4]. rewrite E1, E2, E3, E4, overlaps_im in Ho. rewrite E1, E3 in H.
    apply in_map_iff in Ho. destruct Ho as ([p0 q0] & E & Ho). cbn [fst snd] in E. injection E as <- <-. cbn [imv pos] in H. rewrite !same_im in H. exists i1, i2, p0, q0. auto.
  - intros (i1 & i2 & p & q & Hin & Ho & H). destruct (Hr _ _ Hin) as [L1 L2]. apply Ht in Hin.
    destruct (ats pl1 i1 Hn1 L1) as [E1 E2], (ats pl2 i2 Hn2 L2) as [E3 E4]. exists i1, i2, (im p), (im q). rewrite E1, E2, E3, E4, overlaps_im. cbn [imv pos]. rewrite !same_im.
    split; [auto|]. split; [|exact H]. apply in_map_iff. now exists (p, q).
Qed.

Lemma redundant_im t t' x : (forall e, In e t <-> In e t') -> (forall i1 i2, In (i1, i2) t -> (i1 < segCount pl1)%nat /\ (i2 < segCount pl2)%nat) ->
  (sIndex1 x < segCount pl1)%nat -> (sIndex2 x < segCount pl2)%nat ->
  redundant (imP pl1) (imP pl2) t' (shiftIntr x) <-> redundant pl1 pl2 t x.
Proof.
  intros Ht Hr L1 L2. unfold redundant. cbn [shiftIntr sIndex1 sIndex2 ipos]. rewrite (beside_im t t') by assumption.
  destruct (ats pl1 _ Hn1 L1) as [_ ->], (ats pl2 _ Hn2 L2) as [_ ->]. cbn [imv pos]. rewrite <- shift_image, !same_im. reflexivity.
Qed.

Lemma filter_perm {A} (f : A -> bool) l l' : Permutation l l' -> Permutation (filter f l) (filter f l').
Proof.
  induction 1; cbn [filter].
  - constructor.
  - destruct (f x); [now constructor|assumption].
  - destruct (f x), (f y); try constructor; apply Permutation_refl.
  - eapply perm_trans; eauto.
Qed.

Lemma flat_map_im {A B} (f : A -> list B) (g : A -> list B) (h : B -> B) l : (forall a, In a l -> g a = map h (f a)) -> flat_map g l = map h (flat_map f l).
Proof. intros H. induction l as [|a l IH]; [reflexivity|]. cbn [flat_map]. rewrite map_app, H by now left. rewrite IH; [reflexivity|]. intros; apply H; now right. Qed.

Theorem C70_translate_intersects : indexable pl1 ->
  exists ix ix' intrs coincs intrs' coincs',
    createApproxSpatialIndex pl1 = Ok ix /\ findIntersects defaultNodeSize pl1 pl2 ix [] [] = Ok (intrs, coincs) /\
    createApproxSpatialIndex (translatePolyline pl1 v) = Ok ix' /\
    findIntersects defaultNodeSize (translatePolyline pl1 v) (translatePolyline pl2 v) ix' [] [] = Ok (intrs', coincs') /\
    Permutation intrs' (map shiftIntr intrs) /\ Permutation coincs' (map shiftCIntr coincs).
Proof.
  intros Hix. rewrite <- !translate_image.
  destruct (C30_find_intersects pl1 pl2 Hix Hn2) as (ix & t & intrs & coincs & E1 & E2 & Nd & Ht & Ec & keep & Ei & Hk).
  destruct (C30_find_intersects (imP pl1) (imP pl2) (indexable_im _ Hix)) as (ix' & t' & intrs' & coincs' & E1' & E2' & Nd' & Ht' & Ec' & keep' & Ei' & Hk'); [now rewrite len_im|].
  exists ix, ix', intrs, coincs, intrs', coincs'. split; [auto|]. split; [auto|]. split; [auto|]. split; [auto|].
  assert (Same : forall e, In e t <-> In e t').
  { intros [i1 i2]. rewrite Ht, Ht', !segCount_im. split; (intros (L1 & L2 & M); split; [auto|]; split; [auto|]); [rewrite !sbox_im by auto|rewrite !sbox_im in M by auto];
    unfold boxesMeet, imAABB, imBox in *; cbn [xMin xMax yMin yMax] in *; lra. }
  assert (Hr : forall i1 i2, In (i1, i2) t -> (i1 < segCount pl1)%nat /\ (i2 < segCount pl2)%nat) by (intros i1 i2 Hin; apply Ht in Hin; tauto).
  assert (P : Permutation t' t) by (apply NoDup_Permutation; [auto|auto|]; intros; symmetry; apply Same).
  assert (FP : flat_map (pairPoints (imP pl1) (imP pl2)) t = map shiftIntr (flat_map (pairPoints pl1 pl2) t)).
  { apply flat_map_im. intros [i1 i2] Hin. destruct (Hr _ _ Hin). now apply points_im. }
  split.
  - rewrite Ei, Ei'. eapply perm_trans; [apply filter_perm, (Permutation_flat_map _ P)|]. rewrite FP.
    assert (Rg : forall x, In x (flat_map (pairPoints pl1 pl2) t) -> (sIndex1 x < segCount pl1)%nat /\ (sIndex2 x < segCount pl2)%nat).
    { intros x Hx. apply in_flat_map in Hx. destruct Hx as ([i1 i2] & Hin & Hx). unfold pairPoints in Hx. apply in_map_iff in Hx. destruct Hx as (p & <- & _). cbn [sIndex1 sIndex2]. now apply Hr. }
    assert (K : forall x, In x (flat_map (pairPoints pl1 pl2) t) -> keep' (shiftIntr x) = keep x).
    { intros x Hx. destruct (Rg x Hx) as [L1 L2]. pose proof (Hk x Hx) as K1.
      assert (Hx' : In (shiftIntr x) (flat_map (pairPoints (imP pl1) (imP pl2)) t')). { apply (Permutation_in _ (Permutation_sym (Permutation_flat_map _ P))). rewrite FP. now apply in_map. }
      pose proof (Hk' _ Hx') as K2. rewrite (redundant_im t t' x Same Hr L1 L2) in K2.
      destruct (keep' (shiftIntr x)), (keep x); try reflexivity.
      - now apply K2, K1.
      - symmetry. now apply K1, K2. }
    revert K. generalize (flat_map (pairPoints pl1 pl2) t) as l. clear. intros l K. induction l as [|x l IH]; [constructor|]. cbn [map filter]. rewrite K by now left.
    destruct (keep x); cbn [map]; [constructor|]; apply IH; intros; apply K; now right.
  - rewrite Ec, Ec'. eapply perm_trans; [apply (Permutation_flat_map _ P)|].
    rewrite (flat_map_im (pairCoinc pl1 pl2) _ shiftCIntr); [apply Permutation_refl|]. intros [i1 i2] Hin. destruct (Hr _ _ Hin). now apply coinc_im.
Qed.
End Find.
