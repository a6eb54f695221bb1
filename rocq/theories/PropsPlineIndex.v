(** * The spatial index of a polyline's segments (used by C30, C31, C37) *)
From Coq Require Import ZArith Reals Lra Lia List Bool Arith Permutation.
From Verif Require Import Base Num MathUtils PlineSegment SpatialIndex IndexTree IndexQuery PropsIndex Polyline RGeom Spec PropsMath ArcGeom PropsSegment PropsPolyline.
Import ListNotations.
Open Scope R_scope.

(** number of segments; segment i goes from vertex i to the next vertex (wrapping) *)
Definition segCount (pl : polyline) : nat := length (segs pl).
Definition nextI (pl : polyline) (i : nat) : nat := nextWrappingIndex i (length (vertexes pl)).

(** box of segment i as used by the index *)
Definition sbox (pl : polyline) (i : nat) : aabb := createFastApproxBoundingBox (at_ pl i) (at_ pl (nextI pl i)).
Definition toBox (b : aabb) : @box ROrd := @mkBox ROrd (Fin (xMin b)) (Fin (yMin b)) (Fin (xMax b)) (Fin (yMax b)).

(** rectangles meet, after inflating one of them by [d] *)
Definition boxesMeet (a : aabb) (d : R) (b : aabb) : Prop :=
  xMin a - d <= xMax b /\ xMin b <= xMax a + d /\ yMin a - d <= yMax b /\ yMin b <= yMax a + d.

(** polylines whose index can be built: at least one and at most 2^24 segments and, when there are more segments than fit in
    one node, vertices that are not all on one vertical or horizontal line *)
Definition indexable (pl : polyline) : Prop :=
  (2 <= length (vertexes pl))%nat /\ (Z.of_nat (length (vertexes pl)) <= 2 ^ 24)%Z /\
  ((segCount pl <= 16)%nat \/
   ((exists v w, In v (vertexes pl) /\ In w (vertexes pl) /\ px v < px w) /\
    (exists v w, In v (vertexes pl) /\ In w (vertexes pl) /\ py v < py w))).

Lemma segCount_eq pl : (2 <= length (vertexes pl))%nat ->
  segCount pl = if isClosed pl then length (vertexes pl) else (length (vertexes pl) - 1)%nat.
Proof.
  intros H. unfold segCount, segs. destruct (Nat.ltb_spec (length (vertexes pl)) 2); [lia|].
  rewrite app_length, map_length, seq_length. destruct (isClosed pl); cbn [length]; lia.
Qed.

Lemma segs_iff pl i j : In (i, j) (segs pl) <-> (2 <= length (vertexes pl))%nat /\ (i < segCount pl)%nat /\ j = nextI pl i.
Proof.
  rewrite C21_indices. split.
  - intros (H & H1 & H2 & H3). split; [auto|]. rewrite segCount_eq by auto. unfold nextI, nextWrappingIndex.
    destruct H3 as [->|(E & -> & ->)].
    + destruct (isClosed pl); (split; [lia|]); destruct (Nat.eqb_spec (S i) (length (vertexes pl))); lia.
    + rewrite E. split; [lia|]. destruct (Nat.eqb_spec (S (length (vertexes pl) - 1)) (length (vertexes pl))); lia.
  - intros (H & H1 & ->). rewrite segCount_eq in H1 by auto. unfold nextI, nextWrappingIndex. split; [auto|].
    destruct (Nat.eqb_spec (S i) (length (vertexes pl))) as [E|E].
    + destruct (isClosed pl); [|lia]. split; [lia|]. split; [lia|]. right. split; [auto|]. split; [lia|auto].
    + assert (i < length (vertexes pl))%nat by (destruct (isClosed pl); lia). repeat split; lia.
Qed.

Lemma at_get pl i : (i < length (vertexes pl))%nat -> vget pl i = Ok (at_ pl i).
Proof.
  intros H. unfold vget, rget, at_. destruct (nth_error (vertexes pl) i) eqn:E.
  - apply (nth_error_nth _ _ vdflt) in E. now rewrite E.
  - apply nth_error_None in E. lia.
Qed.

Lemma seg_in_range pl i : (2 <= length (vertexes pl))%nat -> (i < segCount pl)%nat ->
  (i < length (vertexes pl))%nat /\ (nextI pl i < length (vertexes pl))%nat.
Proof. intros H Hi. assert (I : In (i, nextI pl i) (segs pl)) by (apply segs_iff; auto). apply C21_indices in I. lia. Qed.

Lemma mfold_app {A S} (f : S -> A -> res S) l1 l2 s : mfold f (l1 ++ l2) s = let! s' := mfold f l1 s in mfold f l2 s'.
Proof. revert s. induction l1 as [|a l1 IH]; intros s; [reflexivity|]. cbn [app mfold]. destruct (f s a); cbn [bind]; auto. Qed.

Lemma mfold_map {A B S} (f : S -> B -> res S) (g : A -> B) l s : mfold f (map g l) s = mfold (fun s a => f s (g a)) l s.
Proof. revert s. induction l as [|a l IH]; intros s; [reflexivity|]. cbn [map mfold]. destruct (f s (g a)); cbn [bind]; auto. Qed.

Lemma mfold_ext_in {A S} (f g : S -> A -> res S) l s : (forall a s, In a l -> f s a = g s a) -> mfold f l s = mfold g l s.
Proof.
  revert s. induction l as [|a l IH]; intros s H; [reflexivity|]. cbn [mfold]. rewrite (H a s) by now left.
  destruct (g s a); cbn [bind]; auto. apply IH. intros; apply H; now right.
Qed.

(** the index built by createApproxSpatialIndex is the index of the segments' boxes, in segment order *)
Lemma create_build pl : (2 <= length (vertexes pl))%nat ->
  createApproxSpatialIndex pl = build defaultNodeSize (map (fun i => toBox (sbox pl i)) (seq 0 (segCount pl))).
Proof.
  intros Hn. unfold createApproxSpatialIndex, build. rewrite map_length, seq_length. unfold size.
  destruct (Nat.eqb_spec (length (vertexes pl)) 0); [lia|]. rewrite (segCount_eq pl Hn).
  destruct (construct defaultNodeSize _) as [ix| |]; cbn [bind]; try reflexivity.
  unfold addAll. rewrite mfold_map.
  assert (Step : forall ix i, In i (seq 0 (length (vertexes pl) - 1)) ->
    (let! v1 := vget pl i in let! v2 := vget pl (i + 1) in addAABB ix (createFastApproxBoundingBox v1 v2)) =
    add ix (bMinX (toBox (sbox pl i))) (bMinY (toBox (sbox pl i))) (bMaxX (toBox (sbox pl i))) (bMaxY (toBox (sbox pl i)))).
  { intros ix0 i Hi. apply in_seq in Hi. rewrite !at_get by lia. cbn [bind]. unfold addAABB, sbox, nextI, nextWrappingIndex.
    destruct (Nat.eqb_spec (S i) (length (vertexes pl))); [lia|]. replace (S i) with (i + 1)%nat by lia. reflexivity. }
  rewrite (mfold_ext_in _ (fun ix i => add ix (bMinX (toBox (sbox pl i))) (bMinY (toBox (sbox pl i))) (bMaxX (toBox (sbox pl i))) (bMaxY (toBox (sbox pl i))))) by (intros; now apply Step).
  destruct (isClosed pl).
  - replace (seq 0 (length (vertexes pl))) with (seq 0 (length (vertexes pl) - 1) ++ [(length (vertexes pl) - 1)%nat]).
    2:{ replace (length (vertexes pl)) with (length (vertexes pl) - 1 + 1)%nat at 3 by lia. now rewrite seq_app. }
    rewrite mfold_app. match goal with |- context [mfold ?f ?l ix] => destruct (mfold f l ix) as [ix1| |] end; cbn [bind]; try reflexivity.
    cbn [mfold].
    assert (El : lastVertex pl = Ok (at_ pl (length (vertexes pl) - 1))).
    { unfold lastVertex, at_. destruct (vertexes pl) as [|v0 vs] eqn:E; [cbn in Hn; lia|].
      destruct (exists_last (l := v0 :: vs) ltac:(discriminate)) as (l & x & ->). rewrite rev_app_distr, app_length. cbn [rev app length].
      rewrite app_nth2 by lia. replace (length l + 1 - 1 - length l)%nat with 0%nat by lia. reflexivity. }
    rewrite El, at_get by lia. cbn [bind]. unfold addAABB, sbox, nextI, nextWrappingIndex.
    destruct (Nat.eqb_spec (S (length (vertexes pl) - 1)) (length (vertexes pl))); [|lia].
    cbn [toBox bMinX bMinY bMaxX bMaxY inj ROps].
    match goal with |- context [add ix1 ?a ?b ?c ?d] => change (add ix1 a b c d) with (add (O := ROrd) ix1 a b c d); destruct (add (O := ROrd) ix1 a b c d) end; reflexivity.
  - match goal with |- context [mfold ?f ?l ix] => destruct (mfold f l ix) end; reflexivity.
Qed.

(** the box of a segment contains both its end points *)
Lemma sbox_ends v1 v2 : let b := createFastApproxBoundingBox v1 v2 in
  (xMin b <= px v1 <= xMax b /\ yMin b <= py v1 <= yMax b) /\ (xMin b <= px v2 <= xMax b /\ yMin b <= py v2 <= yMax b).
Proof.
  intros b. unfold b, createFastApproxBoundingBox. rcbn.
  pose proof (ordered_pair (px v1) (px v2)) as Hex. pose proof (ordered_pair (py v1) (py v2)) as Hey.
  destruct Hex as (exMin & exMax & -> & E1 & E2). destruct Hey as (eyMin & eyMax & -> & E3 & E4).
  destruct (bulgeIsZero v1); [cbn [xMin yMin xMax yMax]; lra|].
  match goal with |- context [let '(_, _) := ?c in _] => destruct c as [pxMin pxMax] end.
  match goal with |- context [let '(_, _) := ?c in _] => destruct c as [pyMin pyMax] end.
  cbn [xMin yMin xMax yMax].
  pose proof (tmin_le exMin pxMin). pose proof (tmin_le eyMin pyMin). pose proof (tmax_ge exMax pxMax). pose proof (tmax_ge eyMax pyMax). lra.
Qed.

Lemma runVisitor_true {St A} (f : St -> A -> St) l : forall st, runVisitor (fun st a => (true, f st a)) st l = (true, fold_left f l st).
Proof. induction l as [|a l IH]; intros st; [reflexivity|]. cbn [runVisitor fold_left]. apply IH. Qed.

Theorem pline_index pl : indexable pl ->
  exists ix, createApproxSpatialIndex pl = Ok ix /\
    (forall a d, exists l, NoDup l /\ (forall i, In i l <-> (i < segCount pl)%nat /\ boxesMeet a d (sbox pl i)) /\
       forall (St : Type) (visitor : St -> nat -> bool * St) (st : St),
         visitQuery defaultNodeSize ix (Fin (xMin a - d)) (Fin (yMin a - d)) (Fin (xMax a + d)) (Fin (yMax a + d)) visitor st =
         Ok (snd (runVisitor visitor st l))) /\
    (exists items, Permutation items (seq 0 (segCount pl)) /\
       forall (St : Type) (visitor : St -> nat -> @box ROrd -> bool * St) (st : St),
         visitItemBoxes ix visitor st = Ok (snd (runVisitor (fun st i => visitor st i (toBox (sbox pl i))) st items))).
Proof.
  intros (Hn & Hmax & Hd). rewrite (create_build pl Hn).
  set (bs := map (fun i => toBox (sbox pl i)) (seq 0 (segCount pl))).
  assert (Hlen : length bs = segCount pl) by (unfold bs; now rewrite map_length, seq_length).
  pose proof (segCount_eq pl Hn) as Hsc.
  assert (Hs : sizesOk defaultNodeSize (length bs)).
  { unfold sizesOk, defaultNodeSize. rewrite Hlen, Hsc. destruct (isClosed pl); repeat split; try lia. }
  assert (Hp : List.Forall properBox bs).
  { apply List.Forall_forall. intros b Hb. unfold bs in Hb. apply in_map_iff in Hb. destruct Hb as (i & <- & _).
    do 4 eexists. split; [reflexivity|]. destruct (sbox_ends (at_ pl i) (at_ pl (nextI pl i))) as ((A & B) & _). fold (sbox pl i) in A, B. lra. }
  assert (Hok : List.Forall (okBox (O := ROrd) (fun _ => True)) bs) by (apply List.Forall_forall; intros; repeat split).
  assert (Hin : forall v, In v (vertexes pl) -> exists i, In (toBox (sbox pl i)) bs /\ xMin (sbox pl i) <= px v <= xMax (sbox pl i) /\ yMin (sbox pl i) <= py v <= yMax (sbox pl i)).
  { intros v Hv. apply (In_nth _ _ vdflt) in Hv. destruct Hv as (k & Hk & Ev). fold (at_ pl k) in Ev.
    assert (exists i, (i < segCount pl)%nat /\ (k = i \/ k = nextI pl i)) as (i & Hi & Hk').
    { destruct (Nat.eq_dec k (segCount pl)) as [E|E].
      - exists (k - 1)%nat. rewrite Hsc in *. destruct (isClosed pl); [lia|]. split; [lia|]. right. unfold nextI, nextWrappingIndex.
        destruct (Nat.eqb_spec (S (k - 1)) (length (vertexes pl))); lia.
      - exists k. rewrite Hsc in *. destruct (isClosed pl); split; auto; lia. }
    exists i. split; [unfold bs; apply in_map_iff; exists i; split; [auto|apply in_seq; lia]|].
    destruct (sbox_ends (at_ pl i) (at_ pl (nextI pl i))) as (A & B). fold (sbox pl i) in A, B. destruct Hk' as [->| ->]; rewrite Ev in *; auto. }
  assert (Hh : (length bs <= defaultNodeSize)%nat \/ hilOk bs).
  { destruct Hd as [Hd|[(v & w & Hv & Hw & Hx) (v' & w' & Hv' & Hw' & Hy)]]; [left; rewrite Hlen; exact Hd|right].
    destruct (Hin v Hv) as (i1 & I1 & X1 & _). destruct (Hin w Hw) as (i2 & I2 & X2 & _).
    destruct (Hin v' Hv') as (i3 & I3 & _ & Y3). destruct (Hin w' Hw') as (i4 & I4 & _ & Y4).
    assert (Hne : bs <> []) by (intros E; rewrite E in I1; destruct I1).
    destruct (fin_union bs Hp Hne) as (x0 & y0 & x1 & y1 & E).
    pose proof (boxUnion_encl (O := ROrd) (fun _ => True) bs _ Hok I1) as (A1 & _ & _ & _).
    pose proof (boxUnion_encl (O := ROrd) (fun _ => True) bs _ Hok I2) as (_ & _ & A2 & _).
    pose proof (boxUnion_encl (O := ROrd) (fun _ => True) bs _ Hok I3) as (_ & A3 & _ & _).
    pose proof (boxUnion_encl (O := ROrd) (fun _ => True) bs _ Hok I4) as (_ & _ & _ & A4).
    rewrite E in *. cbn [bMinX bMinY bMaxX bMaxY toBox] in *. cbn [xltb ROrd ext_ltb] in *. rewrite ?Rltb_spec, ?Rltb_false in *.
    apply hilOk_proper; auto; rewrite E; cbn [bMinX bMinY bMaxX bMaxY ext_ltb]; apply Rltb_spec; lra. }
  destruct (C03_items_and_extents ROrd _ ROrdLaws defaultNodeSize bs Hs Hok Hh) as (ix & E & (l & Pl & Hl) & _).
  exists ix. split; [exact E|]. split.
  - intros a d. set (q := toBox (mkAABB (xMin a - d) (yMin a - d) (xMax a + d) (yMax a + d))).
    assert (Hq : okBox (O := ROrd) (fun _ => True) q) by (repeat split).
    destruct (C02_visitor_prefix ROrd _ ROrdLaws defaultNodeSize bs ix q Hs Hok Hh Hq E) as (l0 & El0 & Hvis).
    destruct (C01_query_exact ROrd _ ROrdLaws defaultNodeSize bs Hs Hok Hh) as (ix' & E' & Hquery).
    assert (ix' = ix) by congruence. subst ix'. destruct (Hquery q [] Hq) as (l1 & El1 & Hnd & Hiff).
    assert (l1 = l0) by (rewrite El1 in El0; cbn [app] in El0; congruence). subst l1.
    exists l0. split; [exact Hnd|]. split; [|exact Hvis].
    intros i. rewrite Hiff. unfold bs. split.
    + intros (b & Hb & Ho). rewrite nth_error_map in Hb. destruct (nth_error (seq 0 (segCount pl)) i) as [k|] eqn:Ek; [|discriminate].
      cbn [option_map] in Hb. injection Hb as <-.
      assert (Hi : (i < segCount pl)%nat). { assert (nth_error (seq 0 (segCount pl)) i <> None) by congruence. apply nth_error_Some in H. now rewrite seq_length in H. }
      assert (k = i). { apply (nth_error_nth _ _ 0%nat) in Ek. rewrite seq_nth in Ek by auto. lia. } subst k.
      split; [auto|]. unfold overlap, q in Ho. cbn [bMinX bMinY bMaxX bMaxY toBox xMin yMin xMax yMax xltb ROrd ext_ltb] in Ho. rewrite !Rltb_false in Ho.
      unfold boxesMeet. lra.
    + intros [Hi Hm]. exists (toBox (sbox pl i)). split.
      * rewrite nth_error_map. rewrite (nth_error_nth' (seq 0 (segCount pl)) 0%nat) by (now rewrite seq_length).
        cbn [option_map]. rewrite seq_nth by auto. reflexivity.
      * unfold overlap, q. cbn [bMinX bMinY bMaxX bMaxY toBox xMin yMin xMax yMax xltb ROrd ext_ltb]. rewrite !Rltb_false. unfold boxesMeet in Hm. lra.
  - exists (map fst l). rewrite Hlen in Pl.
    assert (Pairs : forall p, In p l -> snd p = toBox (sbox pl (fst p))).
    { intros [k b] H. apply (Permutation_in _ Pl) in H. cbn [fst snd]. unfold bs in H.
      assert (G : forall m s, In (k, b) (combine (seq s m) (map (fun i => toBox (sbox pl i)) (seq s m))) -> b = toBox (sbox pl k)); [|now apply G in H].
      clear. induction m as [|m IH]; intros s H; [destruct H|]. cbn [seq map combine] in H. destruct H as [H|H]; [injection H as <- <-; reflexivity|now apply IH in H]. }
    split.
    + apply (Permutation_map fst) in Pl. eapply Permutation_trans; [exact Pl|]. apply PropsIndex.Permutation_refl_eq.
      assert (G : forall (A B : Type) (a : list A) (b : list B), length a = length b -> map fst (combine a b) = a).
      { clear. induction a as [|x a IH]; intros [|y b] H; cbn in *; try lia; auto. f_equal. apply IH. lia. }
      apply G. now rewrite seq_length.
    + intros St visitor st. rewrite Hl. f_equal. clear -Pairs. f_equal. revert st. induction l as [|[k b] l IH]; intros st; [reflexivity|].
      cbn [runVisitor map fst snd]. assert (Eb : b = toBox (sbox pl k)) by (apply (Pairs (k, b)); now left). subst b.
      destruct (visitor st k _) as [[] st']; [|reflexivity]. apply IH. intros; apply Pairs; now right.
Qed.

(** two segments sharing a point have overlapping boxes: no intersection is lost by the index *)
Theorem boxes_of_crossing (v1 v2 u1 u2 : vertex) (q : vec) d : 0 <= d -> Rabs (bulge v1) <= 1 -> Rabs (bulge u1) <= 1 ->
  onSeg v1 v2 q -> onSeg u1 u2 q -> boxesMeet (createFastApproxBoundingBox v1 v2) d (createFastApproxBoundingBox u1 u2).
Proof.
  intros Hd B1 B2 H1 H2. apply (C15_bounding_box _ _ _ B1) in H1. apply (C15_bounding_box _ _ _ B2) in H2.
  unfold inBox in *. unfold boxesMeet. lra.
Qed.
