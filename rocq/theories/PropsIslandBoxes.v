(** * The bounding rectangle of an offset loop; loops that have a point in common have overlapping rectangles (used by C66) *)
From Coq Require Import ZArith Reals Lra Lia List Bool Arith Permutation.
From Verif Require Import Base Num MathUtils PlineSegment SpatialIndex IndexTree IndexQuery PropsIndex Polyline Intersects Combine Offset Islands RGeom Spec StdLaws PropsMath ArcGeom PropsSegment PropsPolyline PropsWinding PropsPlineIndex PropsRegion PropsIslands PropsIslandSlices PropsIslandCuts.
Import ListNotations.
Open Scope R_scope.

(** the extents of the index of a polyline enclose the boxes of all its segments *)
Lemma pline_extents pl ix : indexable pl -> createApproxSpatialIndex pl = Ok ix -> forall i, (i < segCount pl)%nat ->
  encloses (mkBox (m_minX ix) (m_minY ix) (m_maxX ix) (m_maxY ix)) (toBox (sbox pl i)).
Proof.
  intros Hidx Eix i0 Hi0. destruct Hidx as (Hn & Hmax & Hd). rewrite (create_build pl Hn) in Eix.
  set (bs := map (fun i => toBox (sbox pl i)) (seq 0 (segCount pl))).
  assert (Hlen : length bs = segCount pl) by (unfold bs; now rewrite map_length, seq_length).
  pose proof (segCount_eq pl Hn) as Hsc.
  assert (Hs : sizesOk defaultNodeSize (length bs)).
  { unfold sizesOk, defaultNodeSize. rewrite Hlen, Hsc. destruct (isClosed pl); repeat split; try lia. }
  assert (Hp : List.Forall properBox bs).
  { apply List.Forall_forall. intros b Hb. unfold bs in Hb. apply in_map_iff in Hb. destruct Hb as (i & <- & _).
    do 4 eexists. split; [reflexivity|]. destruct (sbox_ends (at_ pl i) (at_ pl (nextI pl i))) as ((A & B) & _). fold (sbox pl i) in A, B. lra. }
  assert (Hok : List.Forall (okBox (O := ROrd) (fun _ => True)) bs) by (apply List.Forall_forall; intros; repeat split).
  assert (Hin : forall v, In v (vertexes pl) -> exists i, In (toBox (sbox pl i)) bs /\ xMin (sbox pl i) <= px v <= xMax (sbox pl i) /\ yMin (sbox pl i) <= py v <= yMax (sbox pl i)).
  { intros v Hv. apply (In_nth _ _ vdflt) in Hv. destruct Hv as (k & Hk & Ev). fold (at_ pl k) in Ev.
    assert (exists i, (i < segCount pl)%nat /\ (k = i \/ k = nextI pl i)) as (i & Hi & Hk').
    { destruct (Nat.eq_dec k (segCount pl)) as [E|E].
      - exists (k - 1)%nat. rewrite Hsc in *. destruct (isClosed pl); [lia|]. split; [lia|]. right. unfold nextI, nextWrappingIndex.
        destruct (Nat.eqb_spec (S (k - 1)) (length (vertexes pl))); lia.
      - exists k. rewrite Hsc in *. destruct (isClosed pl); split; auto; lia. }
    exists i. split; [unfold bs; apply in_map_iff; exists i; split; [auto|apply in_seq; lia]|].
    destruct (sbox_ends (at_ pl i) (at_ pl (nextI pl i))) as (A & B). fold (sbox pl i) in A, B. destruct Hk' as [->| ->]; rewrite Ev in *; auto. }
  assert (Hh : (length bs <= defaultNodeSize)%nat \/ hilOk bs).
  { destruct Hd as [Hd|[(v & w & Hv & Hw & Hx) (v' & w' & Hv' & Hw' & Hy)]]; [left; rewrite Hlen; exact Hd|right].
    destruct (Hin v Hv) as (i1 & I1 & X1 & _). destruct (Hin w Hw) as (i2 & I2 & X2 & _).
    destruct (Hin v' Hv') as (i3 & I3 & _ & Y3). destruct (Hin w' Hw') as (i4 & I4 & _ & Y4).
    assert (Hne : bs <> []) by (intros E; rewrite E in I1; destruct I1).
    destruct (fin_union bs Hp Hne) as (x0 & y0 & x1 & y1 & E).
    pose proof (boxUnion_encl (O := ROrd) (fun _ => True) bs _ Hok I1) as (A1 & _ & _ & _).
    pose proof (boxUnion_encl (O := ROrd) (fun _ => True) bs _ Hok I2) as (_ & _ & A2 & _).
    pose proof (boxUnion_encl (O := ROrd) (fun _ => True) bs _ Hok I3) as (_ & A3 & _ & _).
    pose proof (boxUnion_encl (O := ROrd) (fun _ => True) bs _ Hok I4) as (_ & _ & _ & A4).
    rewrite E in *. cbn [bMinX bMinY bMaxX bMaxY toBox] in *. cbn [xltb ROrd ext_ltb] in *. rewrite ?Rltb_spec, ?Rltb_false in *.
    apply hilOk_proper; auto; rewrite E; cbn [bMinX bMinY bMaxX bMaxY ext_ltb]; apply Rltb_spec; lra. }
  destruct (C03_items_and_extents ROrd _ ROrdLaws defaultNodeSize bs Hs Hok Hh) as (ix' & E & _ & He & _).
  assert (ix' = ix) by (assert (Ok ix' = Ok ix) by (rewrite <- E; exact Eix); congruence). subst ix'. apply He. unfold bs. apply in_map_iff. exists i0. split; [reflexivity|apply in_seq; lia].
Qed.

Lemma extents_point pl ix q : indexable pl -> smallBulges pl -> createApproxSpatialIndex pl = Ok ix -> onPath pl q ->
  xltb (Fin (vx q)) (m_minX ix) = false /\ xltb (m_maxX ix) (Fin (vx q)) = false /\ xltb (Fin (vy q)) (m_minY ix) = false /\ xltb (m_maxY ix) (Fin (vy q)) = false.
Proof.
  intros Hi Hs E (v1 & v2 & Hin & Ho). pose proof Hin as Hin'. apply (Permutation_in _ (Permutation_sym (vsegs_perm pl))) in Hin. unfold vsegs in Hin. apply in_map_iff in Hin. destruct Hin as ([i j] & Ev & Hij).
  apply segs_iff in Hij. destruct Hij as (H2 & Hlt & ->). injection Ev as <- <-.
  pose proof (pline_extents pl ix Hi E i Hlt) as (A & B & C & D). cbn [bMinX bMinY bMaxX bMaxY toBox] in *.
  assert (Hb : Rabs (bulge (at_ pl i)) <= 1). { unfold smallBulges in Hs. rewrite List.Forall_forall in Hs. apply Hs. unfold at_. apply nth_In. pose proof (segCount_eq pl H2) as Hc. destruct (isClosed pl); lia. }
  apply (C15_bounding_box _ _ _ Hb) in Ho. fold (sbox pl i) in Ho. unfold inBox in Ho.
  cbn [xltb ROrd ord ROps] in *. destruct (m_minX ix), (m_minY ix), (m_maxX ix), (m_maxY ix); cbn [ext_ltb inj ROps xltb ROrd ord] in *; rewrite ?Rltb_false in *; try discriminate; repeat split; try reflexivity; lra.
Qed.

Lemma nlt_trans (a b c : @X ROrd) : xltb a b = false -> xltb b c = false -> xltb a c = false.
Proof. destruct a, b, c; cbn [ext_ltb xltb ROrd ord ROps]; rewrite ?Rltb_false; try discriminate; auto; lra. Qed.

(** two loops with a point in common have overlapping rectangles *)
Lemma common_overlap l1 l2 q : indexed l1 -> indexed l2 -> smallBulges (lpoly l1) -> smallBulges (lpoly l2) -> onPath (lpoly l1) q -> onPath (lpoly l2) q -> overlap (loopBox l1) (loopBox l2).
Proof.
  intros [E1 I1] [E2 I2] S1 S2 O1 O2. destruct (extents_point _ _ q I1 S1 E1 O1) as (A1 & A2 & A3 & A4). destruct (extents_point _ _ q I2 S2 E2 O2) as (B1 & B2 & B3 & B4).
  unfold overlap, loopBox. cbn [bMinX bMinY bMaxX bMaxY].
  split; [eapply nlt_trans; eassumption|]. split; [eapply nlt_trans; eassumption|]. split; eapply nlt_trans; eassumption.
Qed.
