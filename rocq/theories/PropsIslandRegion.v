(** * C66: the region bounded by the results of ParallelOffsetIslands::compute *)
From Coq Require Import ZArith Reals Lra Lia List Bool Arith Permutation Sorted.
From Coquelicot Require Import Coquelicot.
From Verif Require Import Base Num MathUtils PlineSegment SpatialIndex IndexTree IndexQuery PropsIndex Polyline Intersects Combine Offset Islands StdLaws RGeom Spec PropsMath ArcGeom Polar PropsSegment PropsClosest PropsIntr PropsPlineIntr PropsPolyline PropsArea Turning PropsWinding PropsRegion PropsPlineIndex PropsExtents PropsCoincident PropsSlices PropsStitch PropsCombine PropsPieces PropsTrace PropsBoolOps PropsEuler PropsOffset PropsOffsetSlices PropsParallelTotal PropsOffsetRuns PropsOffsetCuts PropsCover PropsRunPoints PropsBalance PropsJordan PropsOffsetParts PropsOffsetResult PropsOffsetConst PropsOffsetExact PropsOffsetSide PropsIslands PropsIslandSlices PropsRegionOps PropsManyBalance PropsIslandCuts PropsIslandBoxes PropsIslandExact.
Import ListNotations.
Open Scope R_scope.

(** ** Loops in general position: where they are cut *)
Section Position.
Context {SL : StdLib} {SLaws : StdLaws SL}.
Context (L : list offsetLoop).
Hypothesis (HP : loopsPosition L) (HI : forall l, In l L -> createApproxSpatialIndex (lpoly l) = Ok (lindex l)).

Lemma loop_ok i li : nth_error L i = Some li -> closedPline (lpoly li) /\ smallBulges (lpoly li) /\ indexable (lpoly li) /\ createApproxSpatialIndex (lpoly li) = Ok (lindex li).
Proof. intros H. apply nth_error_In in H. destruct (lp_loops L HP li H) as (A & B & C). split; [auto|]. split; [auto|]. split; [auto|]. now apply HI. Qed.

Lemma vert_on pl k q : closedPline pl -> (k < length (vertexes pl))%nat -> onSeg (vert pl k 0) (vert pl k 1) q -> onPath pl q.
Proof. intros [Hc H2] Hk O. destruct (seg_at pl k Hc H2 Hk) as (_ & _ & Hin). exists (vert pl k 0), (vert pl k 1). auto. Qed.

Lemma pair_intr i j li lj : (i < j)%nat -> nth_error L i = Some li -> nth_error L j = Some lj -> exists intrs, findIntersects defaultNodeSize (lpoly li) (lpoly lj) (lindex li) [] [] = Ok (intrs, []) /\
  (forall x, In x intrs -> (sIndex1 x < length (vertexes (lpoly li)))%nat /\ (sIndex2 x < length (vertexes (lpoly lj)))%nat /\
     onSeg (vert (lpoly li) (sIndex1 x) 0) (vert (lpoly li) (sIndex1 x) 1) (ipos x) /\ onSeg (vert (lpoly lj) (sIndex2 x) 0) (vert (lpoly lj) (sIndex2 x) 1) (ipos x)) /\
  (forall a b q, (a < length (vertexes (lpoly li)))%nat -> (b < length (vertexes (lpoly lj)))%nat -> onSeg (vert (lpoly li) a 0) (vert (lpoly li) a 1) q -> onSeg (vert (lpoly lj) b 0) (vert (lpoly lj) b 1) q ->
     In (mkIntr a b q) intrs).
Proof.
  intros Hij Hi Hj. destruct (loop_ok i li Hi) as (Ci & Si & Ii & Ei). destruct (loop_ok j lj Hj) as (Cj & Sj & Ij & Ej).
  assert (Mi : forall q, common (lpoly li) (lpoly lj) q -> meeting L i q) by (intros q [A B]; exists j, li, lj; repeat split; auto; lia).
  assert (Mj : forall q, common (lpoly li) (lpoly lj) q -> meeting L j q) by (intros q [A B]; exists i, lj, li; repeat split; auto; lia).
  assert (GP : generalPosition (lpoly li) (lpoly lj)).
  { constructor.
    - intros. eapply (lp_exact L HP i j); eauto.
    - eapply spaced_sub; [exact Mi|]. apply (lp_spaced L HP i li Hi).
    - eapply spaced_sub; [exact Mj|]. apply (lp_spaced L HP j lj Hj).
    - intros q q' H H' N. apply (lp_apart L HP i i); auto. }
  destruct (gp_intersects (lpoly li) (lpoly lj) Ci Cj Ii Si Sj GP) as (ix & intrs & E1 & E2 & S1 & S2). rewrite Ei in E1. injection E1 as <-. exists intrs. auto.
Qed.

Lemma pair_reported i j li lj x : (i < j)%nat -> nth_error L i = Some li -> nth_error L j = Some lj ->
  (touching li lj /\ reported li lj x <-> (sIndex1 x < length (vertexes (lpoly li)))%nat /\ (sIndex2 x < length (vertexes (lpoly lj)))%nat /\
     onSeg (vert (lpoly li) (sIndex1 x) 0) (vert (lpoly li) (sIndex1 x) 1) (ipos x) /\ onSeg (vert (lpoly lj) (sIndex2 x) 0) (vert (lpoly lj) (sIndex2 x) 1) (ipos x)).
Proof.
  intros Hij Hi Hj. destruct (loop_ok i li Hi) as (Ci & Si & Ii & Ei). destruct (loop_ok j lj Hj) as (Cj & Sj & Ij & Ej). destruct (pair_intr i j li lj Hij Hi Hj) as (intrs & E & Snd & Cpl). split.
  - intros [_ (is' & co & E' & H)]. rewrite E in E'. injection E' as <- <-. destruct H as [H|(cs & Ec & H)]; [now apply Snd|]. cbn in Ec. injection Ec as <-. cbn in H. tauto.
  - intros (K1 & K2 & O1 & O2). assert (Hin : In x intrs). { destruct x as [a b q]. now apply Cpl. } split.
    + split; [apply (common_overlap li lj (ipos x)); try (split; auto); auto; [apply (vert_on _ (sIndex1 x))|apply (vert_on _ (sIndex2 x))]; auto|]. exists intrs, []. split; [exact E|]. left. intros ->. destruct Hin.
    + exists intrs, []. split; [exact E|]. now left.
Qed.

(** loop [i] is cut exactly where it meets another loop *)
Lemma meets_iff i li k p : nth_error L i = Some li -> (meets L i k p <-> (k < length (vertexes (lpoly li)))%nat /\ onSeg (vert (lpoly li) k 0) (vert (lpoly li) k 1) p /\ meeting L i p).
Proof.
  intros Hi. destruct (loop_ok i li Hi) as (Ci & Si & Ii & Ei). split.
  - intros (j & li' & lj & x & Hi' & Hj & Ex & H). rewrite Hi in Hi'. injection Hi' as <-. destruct (loop_ok j lj Hj) as (Cj & Sj & Ij & Ej).
    destruct H as [(Hij & Ht & Hr & Ek)|(Hij & Ht & Hr & Ek)]; subst k p.
    + destruct (proj1 (pair_reported i j li lj x Hij Hi Hj) (conj Ht Hr)) as (K1 & K2 & O1 & O2). split; [auto|]. split; [auto|]. exists j, li, lj. repeat split; auto; [lia|eapply vert_on; eauto|eapply vert_on; eauto].
    + destruct (proj1 (pair_reported j i lj li x Hij Hj Hi) (conj Ht Hr)) as (K1 & K2 & O1 & O2). split; [auto|]. split; [auto|]. exists j, li, lj. repeat split; auto; [lia|eapply vert_on; eauto|eapply vert_on; eauto].
  - intros (Hk & O & j & li' & lj & Hi' & Hj & Hne & Oi & Oj). rewrite Hi in Hi'. injection Hi' as <-. destruct (loop_ok j lj Hj) as (Cj & Sj & Ij & Ej).
    destruct (in_onSeg_path (lpoly lj) p (proj1 Cj) (proj2 Cj) Oj) as (b & Hb & Ob). destruct (lt_dec i j) as [Hij|Hij].
    + exists j, li, lj, (mkIntr k b p). split; [auto|]. split; [auto|]. split; [reflexivity|]. left. destruct (proj2 (pair_reported i j li lj (mkIntr k b p) Hij Hi Hj)) as [T Rp]; auto.
    + assert (Hji : (j < i)%nat) by lia. exists j, li, lj, (mkIntr b k p). split; [auto|]. split; [auto|]. split; [reflexivity|]. right. destruct (proj2 (pair_reported j i lj li (mkIntr b k p) Hji Hj Hi)) as [T Rp]; auto.
Qed.

Lemma touched_iff i : touched L i <-> exists q, meeting L i q.
Proof.
  split.
  - intros (j & li & lj & Hi & Hj & [[Hij Ht]|[Hij Ht]]).
    + pose proof Ht as (_ & intrs & co & E & Hne). destruct (pair_intr i j li lj Hij Hi Hj) as (is' & E' & Snd & _). rewrite E in E'. injection E' as -> ->. destruct Hne as [Hne|Hne]; [|congruence]. destruct is' as [|x is']; [congruence|].
      destruct (Snd x (or_introl eq_refl)) as (K1 & K2 & O1 & O2). exists (ipos x), j, li, lj. destruct (loop_ok i li Hi) as (Ci & _). destruct (loop_ok j lj Hj) as (Cj & _). repeat split; auto; [lia|eapply vert_on; eauto|eapply vert_on; eauto].
    + pose proof Ht as (_ & intrs & co & E & Hne). destruct (pair_intr j i lj li Hij Hj Hi) as (is' & E' & Snd & _). rewrite E in E'. injection E' as -> ->. destruct Hne as [Hne|Hne]; [|congruence]. destruct is' as [|x is']; [congruence|].
      destruct (Snd x (or_introl eq_refl)) as (K1 & K2 & O1 & O2). exists (ipos x), j, li, lj. destruct (loop_ok i li Hi) as (Ci & _). destruct (loop_ok j lj Hj) as (Cj & _). repeat split; auto; [lia|eapply vert_on; eauto|eapply vert_on; eauto].
  - intros (q & j & li & lj & Hi & Hj & Hne & Oi & Oj). destruct (loop_ok i li Hi) as (Ci & Si & Ii & Ei). destruct (loop_ok j lj Hj) as (Cj & Sj & Ij & Ej).
    destruct (in_onSeg_path (lpoly li) q (proj1 Ci) (proj2 Ci) Oi) as (a & Ha & Oa). destruct (in_onSeg_path (lpoly lj) q (proj1 Cj) (proj2 Cj) Oj) as (b & Hb & Ob).
    exists j, li, lj. split; [auto|]. split; [auto|]. destruct (lt_dec i j) as [Hij|Hij].
    + left. split; [auto|]. destruct (proj2 (pair_reported i j li lj (mkIntr a b q) Hij Hi Hj)) as [T _]; auto.
    + right. assert (Hji : (j < i)%nat) by lia. split; [auto|]. destruct (proj2 (pair_reported j i lj li (mkIntr b a q) Hji Hj Hi)) as [T _]; auto.
Qed.

Lemma cut_apart i li : nth_error L i = Some li -> cutApart L i li.
Proof.
  intros Hi. destruct (loop_ok i li Hi) as (Ci & Si & Ii & Ei). destruct (lp_spaced L HP i li Hi) as (S1 & S2 & S3). destruct Ci as [Hc H2]. split; [|split].
  - intros k Hk. destruct (seg_at (lpoly li) k Hc H2 Hk) as (E0 & E1 & Hin). rewrite <- E0. unfold nextV. fold (nextI (lpoly li) k). rewrite <- E1. now apply S1.
  - intros k p v Hm Hv. apply (meets_iff i li k p Hi) in Hm. apply S2; tauto.
  - intros k p q Hp Hq E. apply (meets_iff i li k _ Hi) in Hp, Hq. destruct Hp as (Hk & Op & _), Hq as (_ & Oq & _). destruct (seg_at (lpoly li) k Hc H2 Hk) as (E0 & E1 & Pk).
    assert (Hb : Rabs (bulge (vert (lpoly li) k 0)) <= 1) by (apply (vert_small (lpoly li) H2 Si)). assert (Hf : pos (vert (lpoly li) k 0) <> pos (vert (lpoly li) k 1)) by (apply far_ne, (S1 _ _ Pk)).
    apply onSeg_path in Op, Oq. destruct Op as (s & Hs & ->), Oq as (t & Ht & ->). rewrite <- E0 in E.
    assert (s = t); [|now subst]. apply Rle_antisym; apply (start_dist_le (vert (lpoly li) k 0) (vert (lpoly li) k 1)); auto; lra.
Qed.

(** finitely many meeting points *)
Lemma meetings_finite : exists M, forall i q, meeting L i q -> In q M.
Proof.
  assert (Pair : forall i j, exists M, forall li lj q, (i < j)%nat -> nth_error L i = Some li -> nth_error L j = Some lj -> onPath (lpoly li) q -> onPath (lpoly lj) q -> In q M).
  { intros i j. destruct (lt_dec i j) as [Hij|Hij]; [|exists []; intros; lia]. destruct (nth_error L i) as [li|] eqn:Hi; [|exists []; intros; discriminate]. destruct (nth_error L j) as [lj|] eqn:Hj; [|exists []; intros; discriminate].
    destruct (pair_intr i j li lj Hij Hi Hj) as (intrs & _ & _ & C). exists (map ipos intrs). intros li' lj' q _ Ei' Ej' Oi Oj. injection Ei' as <-. injection Ej' as <-.
    destruct (loop_ok i li Hi) as (Ci & _). destruct (loop_ok j lj Hj) as (Cj & _). destruct (in_onSeg_path _ q (proj1 Ci) (proj2 Ci) Oi) as (a & Ha & Oa). destruct (in_onSeg_path _ q (proj1 Cj) (proj2 Cj) Oj) as (b & Hb & Ob).
    apply in_map_iff. exists (mkIntr a b q). split; [reflexivity|]. now apply C. }
  assert (All : forall n, exists M, forall i j li lj q, (i < n)%nat -> (j < length L)%nat -> (i < j)%nat -> nth_error L i = Some li -> nth_error L j = Some lj -> onPath (lpoly li) q -> onPath (lpoly lj) q -> In q M).
  { induction n as [|n (M & HM)]; [exists []; intros; lia|].
    assert (Row : forall m, exists M', forall j li lj q, (j < m)%nat -> (n < j)%nat -> nth_error L n = Some li -> nth_error L j = Some lj -> onPath (lpoly li) q -> onPath (lpoly lj) q -> In q M').
    { induction m as [|m (M' & HM')]; [exists []; intros; lia|]. destruct (Pair n m) as (M2 & H2). exists (M' ++ M2). intros j li lj q Hj Hn Hi Hjj Oi Oj. apply in_or_app. destruct (Nat.eq_dec j m) as [->|]; [right; now apply (H2 li lj)|left; apply (HM' j li lj); auto; lia]. }
    destruct (Row (length L)) as (M' & HM'). exists (M ++ M'). intros i j li lj q Hi Hj Hij Ei Ej Oi Oj. apply in_or_app. destruct (Nat.eq_dec i n) as [->|]; [right; now apply (HM' j li lj)|left; apply (HM i j li lj); auto; lia]. }
  destruct (All (length L)) as (M & HM). exists M. intros i q (j & li & lj & Hi & Hj & Hne & Oi & Oj). assert (i < length L)%nat by (apply nth_error_Some; congruence). assert (j < length L)%nat by (apply nth_error_Some; congruence).
  destruct (lt_dec i j); [apply (HM i j li lj); auto|apply (HM j i lj li); auto; lia].
Qed.
End Position.

(** ** Permission along the loops *)
Section Permission.
Context {SL : StdLib} {SLaws : StdLaws SL}.
Context (input : loopSet) (D : R) (L : list offsetLoop).
Hypothesis (HP : loopsPosition L) (HI : forall l, In l L -> createApproxSpatialIndex (lpoly l) = Ok (lindex l)).
Hypothesis (HD : 1 / 10000 <= D) (HW : forall l, In l (ccwLoops input ++ cwLoops input) -> wellMade l).
Hypothesis (HE : offsetsExact input D L) (HA : arranged input D) (HZ : decisiveIslands input D L).

Definition plA (i : nat) : polyline := match nth_error L i with Some l => lpoly l | None => mkPline true [] end.
Definition parA (i : nat) : nat := match nth_error L i with Some l => parentLoopIndex l | None => 0%nat end.
Definition inputs : list offsetLoop := ccwLoops input ++ cwLoops input.
Definition backA (k : nat) : Z := match nth_error inputs k with Some P => background P | None => 0%Z end.
Local Notation n := (length L).
Local Notation m := (length inputs).
Local Notation facA := (fac n plA parA backA).
Local Notation kapA := (kap n m plA parA backA).
Local Notation loneA := (lone n plA).

Lemma at_loop i li : nth_error L i = Some li -> plA i = lpoly li /\ parA i = parentLoopIndex li /\ (i < n)%nat.
Proof. intros H. unfold plA, parA. rewrite H. split; [auto|]. split; [auto|]. apply nth_error_Some. congruence. Qed.

Lemma loop_at i : (i < n)%nat -> exists li, nth_error L i = Some li.
Proof. intros H. destruct (nth_error L i) eqn:E; [eauto|]. apply nth_error_None in E. lia. Qed.

Lemma lone_iff i li q : nth_error L i = Some li -> onPath (lpoly li) q -> (loneA i q <-> ~ meeting L i q).
Proof.
  intros Hi O. split.
  - intros H (j & li' & lj & Hi' & Hj & Hne & _ & Oj). destruct (at_loop j lj Hj) as (E & _ & Hjn). apply (H j Hjn); [lia|]. now rewrite E.
  - intros H j Hj Hne Oj. destruct (loop_at j Hj) as (lj & Ej). apply H. exists j, li, lj. destruct (at_loop j lj Ej) as (E & _). rewrite E in Oj. repeat split; auto.
Qed.

Lemma seq_nth_map {A B} (F : option A -> B) (l : list A) : map (fun i => F (nth_error l i)) (seq 0 (length l)) = map (fun x => F (Some x)) l.
Proof.
  induction l as [|a l IH]; [reflexivity|]. cbn [length seq map]. f_equal. rewrite <- seq_shift, map_map. exact IH.
Qed.

Lemma fac_sum k q : (forall l, In l L -> parentLoopIndex l = k -> ~ onPath (lpoly l) q) -> facA k q = (backA k + windingSum (map lpoly (filter (fun l => Nat.eqb (parentLoopIndex l) k) L)) q)%Z.
Proof.
  intros H. unfold fac. f_equal. set (F := fun o : option offsetLoop => match o with Some l => if Nat.eqb (parentLoopIndex l) k then (if pdec (onPath (lpoly l) q) then 0%Z else getWindingNumber (lpoly l) q) else 0%Z | None => 0%Z end).
  transitivity (sumZ (map (fun i => F (nth_error L i)) (seq 0 n))).
  - apply sumZ_ext. intros i Hi. apply in_seq in Hi. destruct (loop_at i ltac:(lia)) as (li & E). destruct (at_loop i li E) as (E1 & E2 & _). unfold wn. rewrite E1, E2, E. reflexivity.
  - rewrite seq_nth_map. clear -H. induction L as [|l L' IH]; [reflexivity|]. cbn [map filter]. rewrite sumZ_cons, IH by (intros; apply H; auto; now right). unfold F at 1. destruct (Nat.eqb_spec (parentLoopIndex l) k) as [E|E]; [|reflexivity].
    cbn [map]. change (windingSum (lpoly l :: ?x) q) with (getWindingNumber (lpoly l) q + windingSum x q)%Z. destruct (pdec _) as [O|_]; [destruct (H l (or_introl eq_refl) E O)|reflexivity].
Qed.

Lemma off_loops k q : (forall i, (i < n)%nat -> parA i = k -> ~ onPath (plA i) q) -> forall l, In l L -> parentLoopIndex l = k -> ~ onPath (lpoly l) q.
Proof. intros H l Hl E. apply In_nth_error in Hl. destruct Hl as (i & Hi). destruct (at_loop i l Hi) as (E1 & E2 & Hn). rewrite <- E1. apply H; [auto|congruence]. Qed.

Lemma fac_permitted k P q : inputLoop input k P -> (forall i, (i < n)%nat -> parA i = k -> ~ onPath (plA i) q) -> (facA k q = 0%Z \/ facA k q = 1%Z) /\ (facA k q = 1%Z <-> permitted P D q).
Proof.
  intros Hk Ho. pose proof (off_loops k q Ho) as Ho'. assert (Eb : backA k = background P) by (unfold backA, inputs; unfold inputLoop in Hk; now rewrite Hk).
  rewrite (fac_sum k q Ho'), Eb. destruct (proj2 HE k P q Hk Ho') as [H1 H0]. cbv zeta in H1, H0. destruct (Classical_Prop.classic (permitted P D q)) as [Hp|Hp].
  - rewrite (H1 Hp). tauto.
  - rewrite (H0 Hp). split; [now left|]. split; [discriminate|tauto].
Qed.

Lemma input_at k : (k < m)%nat -> exists P, inputLoop input k P.
Proof. intros H. unfold inputLoop. fold inputs. destruct (nth_error inputs k) eqn:E; [eauto|]. apply nth_error_None in E. lia. Qed.
Lemma input_lt k P : inputLoop input k P -> (k < m)%nat.
Proof. unfold inputLoop. fold inputs. intros H. apply nth_error_Some. congruence. Qed.

Lemma kap_permitted i li q : nth_error L i = Some li -> loneA i q -> (kapA i q = 0%Z \/ kapA i q = 1%Z) /\ (kapA i q = 1%Z <-> forall k P, inputLoop input k P -> k <> parentLoopIndex li -> permitted P D q).
Proof.
  intros Hi Hl. destruct (at_loop i li Hi) as (E1 & E2 & Hn). unfold kap. rewrite E2.
  assert (V : forall k P, inputLoop input k P -> k <> parentLoopIndex li -> (facA k q = 0%Z \/ facA k q = 1%Z) /\ (facA k q = 1%Z <-> permitted P D q)).
  { intros k P Hk Hne. apply fac_permitted; [auto|]. intros j Hj Ej. apply Hl; [auto|]. intros ->. congruence. }
  assert (V01 : forall x, In x (map (fun k => if Nat.eqb k (parentLoopIndex li) then 1%Z else facA k q) (seq 0 m)) -> x = 0%Z \/ x = 1%Z).
  { intros x Hx. apply in_map_iff in Hx. destruct Hx as (k & <- & Hk). apply in_seq in Hk. destruct (Nat.eqb_spec k (parentLoopIndex li)); [now right|]. destruct (input_at k ltac:(lia)) as (P & HPk). now apply (V k P). }
  split; [now apply prodZ_01|]. rewrite (prodZ_1 _ V01). split.
  - intros H k P Hk Hne. apply (V k P Hk Hne). pose proof (input_lt k P Hk) as Hlt. specialize (H (facA k q)). apply H. apply in_map_iff. exists k. split; [|apply in_seq; lia]. destruct (Nat.eqb_spec k (parentLoopIndex li)); [contradiction|reflexivity].
  - intros H x Hx. apply in_map_iff in Hx. destruct Hx as (k & <- & Hk). apply in_seq in Hk. destruct (Nat.eqb_spec k (parentLoopIndex li)) as [|Hne]; [reflexivity|]. destruct (input_at k ltac:(lia)) as (P & HPk). apply (V k P HPk Hne). exact (H k P HPk Hne).
Qed.

(** a point of an offset loop that is clear of another input loop is on its left side *)
Lemma loop_side l k P z : In l L -> onPath (lpoly l) z -> inputLoop input k P -> k <> parentLoopIndex l -> clearBy (lpoly P) D z -> onSide (lpoly P) D z.
Proof.
  intros Hl O Hk Hne Hc. destruct (proj1 HE l z Hl O) as (Q & HQ & (_ & y & Oy & Ey) & _). apply (same_onSide (lpoly P) D z y); auto; [|lra|].
  - apply (HW P). eapply nth_error_In. exact Hk.
  - apply (HA (parentLoopIndex l) k Q P); auto.
Qed.

(** the distance test decides permission at the points it is applied to *)
Lemma far_permitted i li p : nth_error L i = Some li -> judged L i li p -> onPath (lpoly li) p ->
  (farFromOthers input D (parentLoopIndex li) p <-> forall k P, inputLoop input k P -> k <> parentLoopIndex li -> permitted P D p).
Proof.
  intros Hi Hj O. assert (ED : Rabs D = D) by (apply Rabs_right; lra).
  assert (T : forall k P, inputLoop input k P -> k <> parentLoopIndex li -> (pointValidForOffset defaultNodeSize (lpoly P) D (lindex P) p = Ok true <-> clearBy (lpoly P) D p)).
  { intros k P Hk Hne. destruct (HW P (nth_error_In _ _ Hk)) as (Eix & Hix & Hok & Hsm).
    destruct (C37_offset_distance (lpoly P) p D Hix Hok Hsm ltac:(rewrite ED; lra)) as (ix & b & Eix' & Eb & H1 & H0). rewrite Eix in Eix'. injection Eix' as <-. rewrite ED in *. rewrite Eb.
    destruct (HZ i li p k P Hi Hj Hk Hne) as [[Hc Hs]|(q & Oq & Hq)].
    - split; [auto|]. intros _. destruct b; [reflexivity|]. exfalso. destruct (H0 eq_refl) as (v1 & v2 & Hin & Hdq & [Hon|Hn]); [|exact (Hs v1 v2 Hin Hn)].
      assert (Op : onPath (lpoly P) (closestPointOnSeg v1 v2 p)) by (exists v1, v2; auto). specialize (Hc _ Op). lra.
    - split.
      + intros E. injection E as ->. destruct (H1 eq_refl) as [H _]. specialize (H q Oq). lra.
      + intros Hc. specialize (Hc q Oq). lra. }
  unfold farFromOthers. split.
  - intros H k P Hk Hne. assert (Hc : clearBy (lpoly P) D p) by (apply (T k P Hk Hne); exact (H k P Hk Hne)). split; [auto|]. apply (loop_side li k P p); auto. eapply nth_error_In. exact Hi.
  - intros H k P Hk Hne. apply (T k P Hk Hne). exact (proj1 (H k P Hk Hne)).
Qed.

Lemma wind_seg (pl lp : polyline) k s t : smallBulges pl -> s <= t -> (forall x, s <= x <= t -> ~ onPath pl (seg lp k x)) -> getWindingNumber pl (seg lp k s) = getWindingNumber pl (seg lp k t).
Proof.
  intros SB Hst NO. apply C47_constant_along_paths; [auto|]. exists (fun u => seg lp k (s + u * (t - s))). split; [split; [f_equal; ring|split; [f_equal; ring|]]|].
  - intros u _. destruct (seg_smooth (vert lp k 0) (vert lp k 1) (segPath (vert lp k 0) (vert lp k 1)) (segPath_ok _ _)) as [DX DY]. unfold seg.
    split; [apply (ex_derive_continuous (V := R_NormedModule) (fun u0 => vx (segPath (vert lp k 0) (vert lp k 1) (s + u0 * (t - s))))); apply (ex_derive_comp (fun v => vx (segPath (vert lp k 0) (vert lp k 1) v)) (fun u0 => s + u0 * (t - s)))
           |apply (ex_derive_continuous (V := R_NormedModule) (fun u0 => vy (segPath (vert lp k 0) (vert lp k 1) (s + u0 * (t - s))))); apply (ex_derive_comp (fun v => vy (segPath (vert lp k 0) (vert lp k 1) v)) (fun u0 => s + u0 * (t - s)))]; [apply DX|auto_derive; auto|apply DY|auto_derive; auto].
  - intros u Hu. apply NO. nra.
Qed.

Lemma kap_seg i li k s t : nth_error L i = Some li -> 0 <= s -> s <= t -> t <= 1 -> (forall x, s <= x <= t -> ~ meeting L i (seg (lpoly li) k x)) -> kapA i (seg (lpoly li) k s) = kapA i (seg (lpoly li) k t).
Proof.
  intros Hi H0 Hst H1 NM. destruct (loop_ok L HP HI i li Hi) as (Ci & _). apply kap_same. intros j Hj Hne. destruct (loop_at j Hj) as (lj & Ej). destruct (at_loop j lj Ej) as (E & _). destruct (loop_ok L HP HI j lj Ej) as (_ & Sj & _).
  assert (NO : forall x, s <= x <= t -> ~ onPath (lpoly lj) (seg (lpoly li) k x)).
  { intros x Hx O. apply (NM x Hx). exists j, li, lj. repeat split; auto. destruct Ci as [Hc H2]. apply seg_onPath; auto. lra. }
  unfold wn. rewrite E. destruct (pdec _) as [O|_]; [destruct (NO s ltac:(lra) O)|]. destruct (pdec _) as [O|_]; [destruct (NO t ltac:(lra) O)|]. apply wind_seg; auto.
Qed.

Lemma mid_clear pl (X : vec -> Prop) k a d b l : closedPline pl -> run pl k a d b l -> clearOf pl X k a d b -> ~ X (runMid pl k a d b) /\ onPath pl (runMid pl k a d b).
Proof.
  intros [Hc H2] (Ha & Hb & Rr) C. destruct d as [|d']; cbn [clearOf runMid] in *.
  - destruct Rr as (_ & _ & _ & Hab & _). split; [apply C; lra|]. apply seg_onPath; auto. lra.
  - destruct Rr as (_ & _ & _ & _ & Ha1 & Hb0 & _). destruct C as (_ & _ & C3). split; [apply C3; lra|]. apply seg_onPath; auto. lra.
Qed.

(** permission does not change along a stretch *)
Lemma part_kap i li l q : nth_error L i = Some li -> part (lpoly li) (meeting L i) l -> onPath (mkPline false l) q -> ~ meeting L i q -> (kapA i q = 1%Z <-> farFromOthers input D (parentLoopIndex li) (lastMid l)).
Proof.
  intros Hi Hp O NM. destruct (loop_ok L HP HI i li Hi) as (Ci & Si & _). pose proof (lp_spaced L HP i li Hi) as Hsp. pose proof Hp as (k & a & e & b & Hk & He & Rn & C & _).
  pose proof (lastMid_run (lpoly li) _ k a e b l Ci Si Hsp Rn) as Em. destruct (mid_clear _ _ k a e b l Ci Rn C) as [Nm Om]. pose proof Rn as Rn0.
  apply (run_onRun (lpoly li) k a e b l q (proj2 Ci) Rn) in O. destruct Rn as (Ha & Hb & Rn).
  rewrite (run_const (lpoly li) (meeting L i) (fun z => kapA i z = 1%Z) (fun _ => True)) with (k := k) (a := a) (d := e) (b := b); auto.
  - rewrite (far_permitted i li (lastMid l) Hi); [|right; exists l; auto|now rewrite Em]. rewrite Em. apply (kap_permitted i li _ Hi). now apply (lone_iff i li _ Hi Om).
  - intros k0 s t _ H0 Hst H1 Hx. now rewrite (kap_seg i li k0 s t Hi H0 Hst H1 Hx).
  - intros ->. destruct Rn as (? & ? & _ & Hab & _). exact Hab.
  - intros H. destruct e; [lia|]. destruct Rn as (? & ? & ? & _ & A & B & _). auto.
Qed.

(** nor along a loop that meets no other *)
Lemma uncut_kap i li q : nth_error L i = Some li -> (forall z, ~ meeting L i z) -> onPath (lpoly li) q -> (kapA i q = 1%Z <-> farFromOthers input D (parentLoopIndex li) (pos (at_ (lpoly li) 0))).
Proof.
  intros Hi NM Oq. destruct (loop_ok L HP HI i li Hi) as ([Hc H2] & Si & _).
  assert (Vs : forall k, kapA i (seg (lpoly li) k 0) = kapA i (seg (lpoly li) 0 0)).
  { induction k as [|k IH]; [reflexivity|]. rewrite <- IH. assert (E : seg (lpoly li) (S k) 0 = seg (lpoly li) k 1). { unfold seg. rewrite segPath_1, segPath_0. f_equal. unfold vert. do 2 f_equal. lia. }
    rewrite E. symmetry. apply (kap_seg i li); try lra; auto. }
  assert (E0 : seg (lpoly li) 0 0 = pos (at_ (lpoly li) 0)). { unfold seg. rewrite segPath_0. unfold vert. rewrite Nat.add_0_r, Nat.mod_small by lia. reflexivity. }
  assert (O0 : onPath (lpoly li) (pos (at_ (lpoly li) 0))) by (rewrite <- E0; apply seg_onPath; auto; lra).
  destruct (in_onSeg_path (lpoly li) q Hc H2 Oq) as (k & Hk & O). apply onSeg_path in O. destruct O as (t & Ht & ->). change (segPath (vert (lpoly li) k 0) (vert (lpoly li) k 1) t) with (seg (lpoly li) k t) in *.
  rewrite <- (kap_seg i li k 0 t Hi) by (auto; lra). rewrite Vs, E0. rewrite (far_permitted i li _ Hi (or_introl eq_refl) O0). apply (kap_permitted i li _ Hi). now apply (lone_iff i li _ Hi O0).
Qed.
End Permission.
