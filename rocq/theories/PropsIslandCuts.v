(** * C60: ParallelOffsetIslands::compute, exactly: which loops are cut where, what is kept, what is stitched *)
From Coq Require Import ZArith Reals Lra List Bool Arith Lia Permutation Sorted.
From Verif Require Import Base Num MathUtils PlineSegment SpatialIndex IndexTree IndexQuery PropsIndex Polyline Intersects Combine Offset Islands RGeom Spec StdLaws PropsCoincident PropsPlineIndex PropsSlices PropsCombine
  PropsParallel PropsRegion PropsExtents PropsPieces PropsOffset PropsOffsetSlices PropsParallelTotal PropsOffsetCuts PropsIslands PropsIslandSlices.
Import ListNotations.
Local Open Scope R_scope.

(** ** Specification *)
Section Spec.
Context {SL : StdLib}.

(** the parallel offsets of all input loops, with the number of the loop each comes from *)
Definition offsetsOf (d : R) (l : offsetLoop) : list polyline := match parallelOffset (lpoly l) d false with Ok ps => ps | _ => [] end.
Definition numbered {X} (l : list X) : list (nat * X) := combine (seq 0 (length l)) l.
Definition allOffsets (input : loopSet) (d : R) : list (nat * polyline) :=
  flat_map (fun il => map (pair (fst il)) (offsetsOf d (snd il))) (numbered (ccwLoops input ++ cwLoops input)).

(** [L] are the offset loops in use: the offsets that are not clockwise, then the clockwise offsets of clockwise input loops *)
Definition offsetLoops (input : loopSet) (d : R) (L : list offsetLoop) : Prop :=
  map (fun l => (parentLoopIndex l, lpoly l)) L =
    filter (fun ip => negb (Rltb (getArea (snd ip)) 0)) (allOffsets input d) ++
    filter (fun ip => Rltb (getArea (snd ip)) 0 && (length (ccwLoops input) <=? fst ip)%nat) (allOffsets input d) /\
  forall l, In l L -> createApproxSpatialIndex (lpoly l) = Ok (lindex l).

(** bounding rectangle of a loop *)
Definition loopBox (l : offsetLoop) : box := mkBox (m_minX (lindex l)) (m_minY (lindex l)) (m_maxX (lindex l)) (m_maxY (lindex l)).

(** the two loops touch each other: their rectangles overlap and the intersection search reports something for them *)
Definition touching (l1 l2 : offsetLoop) : Prop :=
  overlap (loopBox l1) (loopBox l2) /\ exists intrs coinc, findIntersects defaultNodeSize (lpoly l1) (lpoly l2) (lindex l1) [] [] = Ok (intrs, coinc) /\ (intrs <> [] \/ coinc <> []).

(** loop [i] touches some other loop; it meets another loop in [p], on its segment [k] *)
Definition touched (L : list offsetLoop) (i : nat) : Prop :=
  exists j li lj, nth_error L i = Some li /\ nth_error L j = Some lj /\ (((i < j)%nat /\ touching li lj) \/ ((j < i)%nat /\ touching lj li)).
Definition meets (L : list offsetLoop) (i k : nat) (p : vec) : Prop :=
  exists j li lj x, nth_error L i = Some li /\ nth_error L j = Some lj /\ ipos x = p /\
    (((i < j)%nat /\ touching li lj /\ reported li lj x /\ sIndex1 x = k) \/ ((j < i)%nat /\ touching lj li /\ reported lj li x /\ sIndex2 x = k)).
End Spec.

Section Proof.
Context {SL : StdLib} {SLaws : StdLaws SL}.

(** ** The dissection points of one loop *)
Definition tbl (m : list (nat * list dissPoint)) (k : nat) (p : vec) : Prop := exists l q, In (k, l) m /\ In q l /\ dpos q = p.
Definition keyed (m : list (nat * list dissPoint)) : Prop := NoDup (map fst m) /\ forall k l, In (k, l) m -> l <> [].

Lemma push_tbl m k q : keyed m -> keyed (mpush k q m) /\ forall k' p, tbl (mpush k q m) k' p <-> tbl m k' p \/ (k' = k /\ p = dpos q).
Proof.
  intros [N H]. destruct (mpush_spec m k q N) as [N' S]. split; [split; [exact N'|]|].
  - intros k' l Hl. apply S in Hl. destruct Hl as [[_ Hl]|[-> [(l0 & Hl & ->)|[_ ->]]]]; [eauto|intros E; apply app_eq_nil in E; destruct E; discriminate|discriminate].
  - intros k' p. unfold tbl. split.
    + intros (l & q' & Hl & Hq & E). apply S in Hl. destruct Hl as [[_ Hl]|[-> [(l0 & Hl & ->)|[_ ->]]]].
      * left. eauto.
      * apply in_app_or in Hq. destruct Hq as [Hq|[<-|[]]]; [left; eauto|right; auto].
      * destruct Hq as [<-|[]]. right. auto.
    + intros [(l & q' & Hl & Hq & E)|[-> ->]].
      * destruct (Nat.eq_dec k' k) as [->|Hne].
        -- exists (l ++ [q]), q'. split; [apply S; right; split; [auto|]; left; eauto|]. split; [apply in_or_app; now left|auto].
        -- exists l, q'. split; [apply S; now left|]. auto.
      * destruct (in_dec Nat.eq_dec k (map fst m)) as [Hin|Hni].
        -- apply in_map_iff in Hin. destruct Hin as ([k0 l] & E & Hl). cbn in E. subst k0. exists (l ++ [q]), q. split; [apply S; right; split; [auto|]; left; eauto|]. split; [apply in_or_app; right; now left|auto].
        -- exists [q], q. split; [apply S; right; split; [auto|]; right; auto|]. split; [now left|auto].
Qed.

Lemma push_fold_tbl {X} (f : X -> nat) (g : X -> dissPoint) pts : forall m, keyed m -> let m' := fold_left (fun m p => mpush (f p) (g p) m) pts m in
  keyed m' /\ forall k p, tbl m' k p <-> tbl m k p \/ exists x, In x pts /\ f x = k /\ dpos (g x) = p.
Proof.
  induction pts as [|x pts IH]; intros m Hm; cbn [fold_left].
  - split; [exact Hm|]. intros k p. split; [auto|]. intros [H|(x & [] & _)]. exact H.
  - destruct (push_tbl m (f x) (g x) Hm) as [K T]. destruct (IH _ K) as [K' T']. split; [exact K'|]. intros k p. rewrite T', T. split.
    + intros [[H|[-> ->]]|(y & Hy & E)]; [auto| |right; exists y; split; [now right|auto]]. right. exists x. split; [now left|auto].
    + intros [H|(y & [<-|Hy] & E1 & E2)]; [auto| |right; eauto]. left. right. auto.
Qed.

Lemma sortD_sorted (v : vec) (l : list dissPoint) : StronglySorted (fun a b => dist v (dpos a) <= dist v (dpos b)) (std_sort (fun a b => tltb (distSquared (dpos a) v) (distSquared (dpos b) v)) l).
Proof.
  assert (W : strictWeak (fun a b : dissPoint => tltb (distSquared (dpos a) v) (distSquared (dpos b) v))).
  { apply (strictWeak_key (fun x y : R => Rltb x y) (fun a => distSquared (dpos a) v)). split.
    - intros a. apply Rltb_false. lra.
    - intros a b c. rewrite !Rltb_spec. lra.
    - intros a b c. rewrite !Rltb_false. lra. }
  pose proof (sort_sorted _ _ l W) as S. induction S as [|a l' S IH F]; constructor; auto.
  eapply List.Forall_impl; [|exact F]. intros b Hb. rcbn. rbool. unfold distSquared, dot, vsub in Hb. rcbn. unfold dist. apply sqrt_le_1_alt. nra.
Qed.

(** the sorted table is the table of the cuts of the loop *)
Lemma sort_tbl pl m m' : sortDiss pl m = Ok m' -> keyed m -> keyed m' /\ (forall k p, tbl m' k p <-> tbl m k p) /\
  (forall k l, In (k, l) m' -> (k < length (vertexes pl))%nat /\ StronglySorted (fun a b => dist (pos (at_ pl k)) (dpos a) <= dist (pos (at_ pl k)) (dpos b)) l).
Proof.
  intros E [N H].
  assert (G : map fst m' = map fst m /\ (forall k l, In (k, l) m' -> (k < length (vertexes pl))%nat /\ (exists l0, In (k, l0) m /\ Permutation l l0) /\
     StronglySorted (fun a b => dist (pos (at_ pl k)) (dpos a) <= dist (pos (at_ pl k)) (dpos b)) l) /\ forall k l0, In (k, l0) m -> exists l, In (k, l) m' /\ Permutation l l0).
  { clear N H. revert m' E. unfold sortDiss. induction m as [|[k0 l0] m IH]; intros m' E; cbn [mmap] in E; [injection E as <-; split; [auto|split; [intros k l []|intros k l []]]|].
    apply bind_inv in E. destruct E as ([k1 l1] & E1 & E). apply bind_inv in E. destruct E as (m1 & Em & E). injection E as <-. apply bind_inv in E1. destruct E1 as (v & Ev & E1). injection E1 as <- <-.
    destruct (IH m1 Em) as (IH1 & IH2 & IH3). cbn [map fst]. split; [now rewrite IH1|]. split.
    - intros k l [E|Hin].
      + injection E as <- <-. assert (Hk : (k0 < length (vertexes pl))%nat) by (unfold vget in Ev; apply rget_inv in Ev; apply nth_error_Some; rewrite Ev; discriminate).
        split; [exact Hk|]. split; [exists l0; split; [now left|apply sort_perm]|]. rewrite vget_at in Ev by exact Hk. injection Ev as <-. exact (sortD_sorted (pos (at_ pl k0)) l0).
      + destruct (IH2 k l Hin) as (A & (l2 & B & C) & D). split; [auto|]. split; [|exact D]. exists l2. split; [now right|auto].
    - intros k l [E|Hin].
      + injection E as <- <-. eexists. split; [now left|]. apply sort_perm.
      + destruct (IH3 k l Hin) as (l2 & A & B). exists l2. split; [now right|auto]. }
  destruct G as (G1 & G2 & G3). split; [split|split].
  - now rewrite G1.
  - intros k l Hl. destruct (G2 k l Hl) as (_ & (l0 & H0 & Pm) & _). intros ->. apply Permutation_nil in Pm. subst. now apply (H k []).
  - intros k p. split; intros (l & q & Hl & Hq & E').
    + destruct (G2 k l Hl) as (_ & (l0 & H0 & Pm) & _). exists l0, q. split; [auto|]. split; [eapply Permutation_in; eauto|auto].
    + destruct (G3 k l Hl) as (l0 & H0 & Pm). exists l0, q. split; [auto|]. split; [eapply Permutation_in; [apply Permutation_sym; eauto|auto]|auto].
  - intros k l Hl. destruct (G2 k l Hl) as (A & _ & B). auto.
Qed.

Lemma cutsAt_table m k l : NoDup (map fst m) -> In (k, l) m -> cutsAt (cutsOf m) k = map toSP l.
Proof.
  unfold cutsAt, cutsOf. induction m as [|[k0 l0] m IH]; intros N Hin; [destruct Hin|]. cbn [map fst] in N. inversion N as [|? ? Hni N']. subst. cbn [flat_map fst snd]. rewrite filter_app, map_app.
  assert (E0 : map snd (filter (fun c : nat * slicePoint => (fst c =? k)%nat) (map (fun p => (k0, toSP p)) l0)) = if (k0 =? k)%nat then map toSP l0 else []).
  { clear. induction l0 as [|p l0 IH]; cbn [map filter fst]; [now destruct (k0 =? k)%nat|]. destruct (k0 =? k)%nat; cbn [map snd]; [now rewrite IH|exact IH]. }
  rewrite E0. destruct Hin as [E|Hin].
  - injection E as -> ->. rewrite Nat.eqb_refl. rewrite <- (app_nil_r (map toSP l)) at 2. f_equal.
    clear -Hni. induction m as [|[k1 l1] m IH]; [reflexivity|]. cbn [flat_map fst snd map] in *. rewrite filter_app, map_app, IH by (intros F; apply Hni; now right). rewrite app_nil_r.
    assert (Hne : (k1 =? k)%nat = false) by (apply Nat.eqb_neq; intros ->; apply Hni; now left). clear -Hne. induction l1 as [|p l1 IH]; cbn [map filter fst]; [reflexivity|]. now rewrite Hne.
  - destruct (Nat.eqb_spec k0 k) as [->|Hne]; [|cbn [app]; auto]. exfalso. apply Hni. apply in_map_iff. exists (k, l). auto.
Qed.

Lemma sorted_represents pl m m' : sortDiss pl m = Ok m' -> keyed m -> 
  (forall k p q, tbl m k p -> tbl m k q -> dist (pos (at_ pl k)) p = dist (pos (at_ pl k)) q -> p = q) ->
  representsSorted pl (cutsOf m') (toTable m').
Proof.
  intros E Hm Inj. destruct (sort_tbl pl m m' E Hm) as ([N' Hne] & T & S).
  assert (Ek : map fst (toTable m') = map fst m') by (unfold toTable; rewrite map_map; reflexivity).
  assert (Key : forall k l, In (k, l) m' -> map toSP l = sortedCuts pl (cutsOf m') k).
  { intros k l Hl. destruct (C33_sorted pl (cutsOf m') k) as [P1 S1]. rewrite (cutsAt_table m' k l N' Hl) in P1. destruct (S k l Hl) as [_ Sl]. symmetry.
    apply (sorted_unique (fun c => dist (pos (at_ pl k)) (spPos c))); [exact P1|exact S1| |].
    - apply (sorted_map toSP (fun a b => dist (pos (at_ pl k)) (spPos a) <= dist (pos (at_ pl k)) (spPos b))). exact Sl.
    - intros a b Ha Hb Hd. apply (Permutation_in _ P1) in Ha, Hb. apply in_map_iff in Ha, Hb. destruct Ha as (pa & <- & Ha), Hb as (pb & <- & Hb). unfold toSP in *. cbn [spPos] in *. f_equal.
      apply (Inj k); [apply T; exists l, pa; auto|apply T; exists l, pb; auto|exact Hd]. }
  split; [now rewrite Ek|]. intros k l. split.
  - intros Hl. unfold toTable in Hl. apply in_map_iff in Hl. destruct Hl as ([k0 l0] & E0 & Hl). cbn [fst snd] in E0. injection E0 as -> <-. split; [now apply Key|]. specialize (Hne k l0 Hl). now destruct l0.
  - intros [-> Hn]. destruct (sortedCuts pl (cutsOf m') k) as [|c t] eqn:Ec; [contradiction|].
    assert (Hc : In (k, c) (cutsOf m')) by (apply (sortedCuts_In pl); rewrite Ec; now left). apply cutsOf_In in Hc. destruct Hc as (l0 & p & Hl & _). rewrite <- Ec, <- (Key k l0 Hl).
    unfold toTable. apply in_map_iff. exists (k, l0). auto.
Qed.

(** ** The offset loops *)
Definition pp (l : offsetLoop) : nat * polyline := (parentLoopIndex l, lpoly l).
Definition isNeg (ip : nat * polyline) : bool := Rltb (getArea (snd ip)) 0.
Lemma t0_R : (t0 : R) = 0.
Proof. unfold t0. rcbn. field. Qed.
Lemma neg_R p : tltb (getArea p) t0 = Rltb (getArea p) 0.
Proof. rewrite t0_R. reflexivity. Qed.

Definition ixOk (l : offsetLoop) : Prop := createApproxSpatialIndex (lpoly l) = Ok (lindex l).

Lemma addCcw_all pi offs : forall ccw ccw', mfold (addCcwOffset pi) offs ccw = Ok ccw' -> List.Forall ixOk ccw ->
  map pp ccw' = map pp ccw ++ filter (fun ip => negb (isNeg ip)) (map (pair pi) offs) /\ List.Forall ixOk ccw'.
Proof.
  induction offs as [|p offs IH]; intros ccw ccw' E H; cbn [mfold] in E; [injection E as <-; cbn; now rewrite app_nil_r|].
  apply bind_inv in E. destruct E as (c1 & E1 & E). unfold addCcwOffset in E1. rewrite neg_R in E1. cbn [map filter]. unfold isNeg at 1. cbn [snd]. destruct (Rltb (getArea p) 0).
  - injection E1 as <-. cbn [negb]. now apply IH.
  - apply bind_inv in E1. destruct E1 as (ix & Eix & E1). injection E1 as <-. cbn [negb]. destruct (IH _ _ E) as [A B].
    + apply Forall_app. split; [exact H|]. constructor; [exact Eix|constructor].
    + split; [|exact B]. rewrite A, map_app, <- app_assoc. reflexivity.
Qed.

Lemma addCw_all pi offs : forall ccw cw ccw' cw', mfold (addCwOffset pi) offs (ccw, cw) = Ok (ccw', cw') -> List.Forall ixOk ccw -> List.Forall ixOk cw ->
  map pp ccw' = map pp ccw ++ filter (fun ip => negb (isNeg ip)) (map (pair pi) offs) /\ map pp cw' = map pp cw ++ filter isNeg (map (pair pi) offs) /\ List.Forall ixOk ccw' /\ List.Forall ixOk cw'.
Proof.
  induction offs as [|p offs IH]; intros ccw cw ccw' cw' E H H'; cbn [mfold] in E; [injection E as <- <-; cbn; now rewrite !app_nil_r|].
  apply bind_inv in E. destruct E as ([c1 w1] & E1 & E). unfold addCwOffset in E1. rewrite neg_R in E1. apply bind_inv in E1. destruct E1 as (ix & Eix & E1).
  cbn [map filter]. change (isNeg (pi, p)) with (Rltb (getArea p) 0). destruct (Rltb (getArea p) 0); injection E1 as <- <-; cbn [negb].
  - destruct (IH _ _ _ _ E) as (A & B & C); [exact H|apply Forall_app; split; [exact H'|]; constructor; [exact Eix|constructor]|]. split; [exact A|]. split; [|exact C]. rewrite B, map_app, <- app_assoc. reflexivity.
  - destruct (IH _ _ _ _ E) as (A & B & C); [apply Forall_app; split; [exact H|]; constructor; [exact Eix|constructor]|exact H'|]. split; [|split; [exact B|exact C]]. rewrite A, map_app, <- app_assoc. reflexivity.
Qed.

Lemma offsetsOf_ok d l ps : parallelOffset (lpoly l) d false = Ok ps -> offsetsOf d l = ps.
Proof. intros E. unfold offsetsOf. now rewrite E. Qed.

Definition offs (d : R) (il : nat * offsetLoop) : list (nat * polyline) := map (pair (fst il)) (offsetsOf d (snd il)).

Lemma filter_flat {X Y} (f : Y -> bool) (g : X -> list Y) l : filter f (flat_map g l) = flat_map (fun x => filter f (g x)) l.
Proof. induction l as [|x l IH]; [reflexivity|]. cbn [flat_map]. now rewrite filter_app, IH. Qed.

Lemma offsets_exact o input d o' : createOffsetLoops o input d = Ok o' -> offsetLoops input d (o_ccw o' ++ o_cw o').
Proof.
  unfold createOffsetLoops. intros E. apply bind_inv in E. destruct E as ([pi ccw] & E1 & E). apply bind_inv in E. destruct E as ([[pi2 ccw2] cw] & E2 & E). injection E as <-. cbn [o_ccw o_cw].
  assert (G1 : forall ls pi0 ccw0 pi1 ccw1, List.Forall ixOk ccw0 ->
    mfold (fun '(parentIndex, ccw) loop => let! offsets := parallelOffset (lpoly loop) d false in let! ccw := mfold (addCcwOffset parentIndex) offsets ccw in Ok (S parentIndex, ccw)) ls (pi0, ccw0) = Ok (pi1, ccw1) ->
    pi1 = (pi0 + length ls)%nat /\ map pp ccw1 = map pp ccw0 ++ filter (fun ip => negb (isNeg ip)) (flat_map (offs d) (combine (seq pi0 (length ls)) ls)) /\ List.Forall ixOk ccw1).
  { clear. induction ls as [|lp ls IH]; intros pi0 ccw0 pi1 ccw1 H E; cbn [mfold] in E.
    - injection E as <- <-. cbn. rewrite app_nil_r. split; [lia|auto].
    - apply bind_inv in E. destruct E as ([pi' ccw'] & E1 & E). apply bind_inv in E1. destruct E1 as (of & Eo & E1). apply bind_inv in E1. destruct E1 as (ccw2 & E2 & E1). injection E1 as <- <-.
      destruct (addCcw_all _ _ _ _ E2 H) as [A B]. destruct (IH _ _ _ _ B E) as (I1 & I2 & I3). cbn [length seq combine flat_map]. split; [lia|]. split; [|exact I3].
      rewrite I2, A, filter_app, <- app_assoc. unfold offs at 2. cbn [fst snd]. now rewrite (offsetsOf_ok _ _ _ Eo). }
  destruct (G1 _ _ _ _ _ (Forall_nil _) E1) as (-> & M1 & F1). clear G1 E1.
  assert (G2 : forall ls pi0 ccw0 cw0 pi1 ccw1 cw1, List.Forall ixOk ccw0 -> List.Forall ixOk cw0 ->
    mfold (fun '(parentIndex, ccw, cw) loop => let! offsets := parallelOffset (lpoly loop) d false in let! (ccw, cw) := mfold (addCwOffset parentIndex) offsets (ccw, cw) in Ok (S parentIndex, ccw, cw)) ls (pi0, ccw0, cw0) = Ok (pi1, ccw1, cw1) ->
    map pp ccw1 = map pp ccw0 ++ filter (fun ip => negb (isNeg ip)) (flat_map (offs d) (combine (seq pi0 (length ls)) ls)) /\
    map pp cw1 = map pp cw0 ++ filter isNeg (flat_map (offs d) (combine (seq pi0 (length ls)) ls)) /\ List.Forall ixOk ccw1 /\ List.Forall ixOk cw1).
  { clear. induction ls as [|lp ls IH]; intros pi0 ccw0 cw0 pi1 ccw1 cw1 H H' E; cbn [mfold] in E.
    - injection E as <- <- <-. cbn. rewrite !app_nil_r. auto.
    - apply bind_inv in E. destruct E as ([[pi' ccw'] cw'] & E1 & E). apply bind_inv in E1. destruct E1 as (of & Eo & E1). apply bind_inv in E1. destruct E1 as ([ccw2 cw2] & E2 & E1). injection E1 as <- <- <-.
      destruct (addCw_all _ _ _ _ _ _ E2 H H') as (A & B & C & D). destruct (IH _ _ _ _ _ _ C D E) as (I2 & I3 & I4 & I5). cbn [length seq combine flat_map].
      split; [|split; [|split; [exact I4|exact I5]]]; [rewrite I2, A|rewrite I3, B]; rewrite filter_app, <- app_assoc; unfold offs at 2; cbn [fst snd]; now rewrite (offsetsOf_ok _ _ _ Eo). }
  destruct (G2 _ _ _ _ _ _ _ F1 (Forall_nil _) E2) as (M2 & M3 & F2 & F3). clear G2 E2. rewrite M1 in M2. cbn [map app] in M1, M2, M3.
  assert (Ea : allOffsets input d = flat_map (offs d) (combine (seq 0 (length (ccwLoops input))) (ccwLoops input)) ++ flat_map (offs d) (combine (seq (length (ccwLoops input)) (length (cwLoops input))) (cwLoops input))).
  { unfold allOffsets, numbered. rewrite <- flat_map_app. f_equal. rewrite app_length, seq_app. cbn [plus].
    assert (G : forall (a b : list nat) (c e : list offsetLoop), length a = length c -> combine (a ++ b) (c ++ e) = combine a c ++ combine b e).
    { clear. induction a as [|x a IH]; intros b [|y c] e H; try discriminate; [reflexivity|]. cbn [app combine]. f_equal. apply IH. now injection H. }
    apply G. now rewrite seq_length. }
  assert (Hfst : forall st ls ip, In ip (flat_map (offs d) (combine (seq st (length ls)) ls)) -> (st <= fst ip < st + length ls)%nat).
  { clear. intros st ls ip H. apply in_flat_map in H. destruct H as ([i l] & Hil & H). apply in_combine_l, in_seq in Hil. unfold offs in H. apply in_map_iff in H. destruct H as (p & <- & _). exact Hil. }
  split.
  - change (map (fun l => (parentLoopIndex l, lpoly l)) (ccw2 ++ cw)) with (map pp (ccw2 ++ cw)). rewrite map_app, M2, M3, Ea, !filter_app, <- !app_assoc. f_equal. f_equal.
    set (P1 := flat_map (offs d) (combine (seq 0 _) _)) in *. set (P2 := flat_map (offs d) (combine (seq (length (ccwLoops input)) _) _)) in *.
    assert (X1 : filter (fun ip : nat * polyline => Rltb (getArea (snd ip)) 0 && (length (ccwLoops input) <=? fst ip)%nat) P1 = []).
    { assert (G : forall l, (forall ip, In ip l -> (fst ip < length (ccwLoops input))%nat) -> filter (fun ip : nat * polyline => Rltb (getArea (snd ip)) 0 && (length (ccwLoops input) <=? fst ip)%nat) l = []).
      { clear. induction l as [|ip l IH]; intros H; [reflexivity|]. cbn [filter]. rewrite IH by (intros; apply H; now right). assert ((length (ccwLoops input) <=? fst ip)%nat = false) as -> by (apply Nat.leb_gt, H; now left). now rewrite andb_false_r. }
      apply G. intros ip Hip. apply Hfst in Hip. lia. }
    rewrite X1. cbn [app]. apply filter_ext_in. intros ip Hip. apply Hfst in Hip. unfold isNeg. assert ((length (ccwLoops input) <=? fst ip)%nat = true) as -> by (apply Nat.leb_le; lia). now rewrite andb_true_r.
  - rewrite List.Forall_forall in F2, F3. intros l Hl. apply in_app_or in Hl. destruct Hl; [now apply F2|now apply F3].
Qed.

(** ** The index of the loops *)
Definition loopsOf (o : islandsObj) : list offsetLoop := o_ccw o ++ o_cw o.
Lemma getLoop_nth o i l : getOffsetLoop o i = Ok l <-> nth_error (loopsOf o) i = Some l.
Proof.
  unfold getOffsetLoop, loopsOf. destruct (Nat.ltb_spec i (length (o_ccw o))).
  - rewrite nth_error_app1 by auto. apply rget_inv.
  - rewrite nth_error_app2 by auto. apply rget_inv.
Qed.
Lemma total_length o : totalOffsetLoopsCount o = length (loopsOf o).
Proof. unfold totalOffsetLoopsCount, loopsOf. now rewrite app_length. Qed.

Lemma mfold_app {A S} (f : S -> A -> res S) l1 l2 : forall s, mfold f (l1 ++ l2) s = bind (mfold f l1 s) (mfold f l2).
Proof. induction l1 as [|a l1 IH]; intros s; cbn [app mfold bind]; [reflexivity|]. destruct (f s a); cbn [bind]; auto. Qed.
Lemma mfold_map {A B S} (g : A -> B) (f : S -> B -> res S) l : forall s, mfold f (map g l) s = mfold (fun s a => f s (g a)) l s.
Proof. induction l as [|a l IH]; intros s; cbn [map mfold]; [reflexivity|]. destruct (f s (g a)); cbn [bind]; auto. Qed.

Lemma loopsIndex_build o o2 : createOffsetLoopsIndex o = Ok o2 -> exists ix, o_index o2 = Some ix /\ build defaultNodeSize (map loopBox (loopsOf o)) = Ok ix.
Proof.
  unfold createOffsetLoopsIndex, build. intros E. apply bind_inv in E. destruct E as (ix0 & E0 & E). apply bind_inv in E. destruct E as (ix1 & E1 & E). apply bind_inv in E. destruct E as (ix2 & E2 & E). apply bind_inv in E. destruct E as (ix3 & E3 & E).
  injection E as <-. exists ix3. split; [reflexivity|]. rewrite map_length, <- total_length, E0. cbn [bind]. unfold addAll. rewrite mfold_map. unfold loopsOf. rewrite mfold_app.
  match goal with |- bind (bind (mfold ?f _ _) _) _ = _ => replace (mfold f (o_ccw o) ix0) with (Ok ix1) by (symmetry; exact E1) end. cbn [bind].
  match goal with |- bind (mfold ?f _ _) _ = _ => replace (mfold f (o_cw o) ix1) with (Ok ix2) by (symmetry; exact E2) end. cbn [bind]. exact E3.
Qed.

Lemma overlap_sym (a b : box) : overlap a b -> overlap b a.
Proof. unfold overlap. tauto. Qed.

Definition manageable (L : list offsetLoop) : Prop := (Z.of_nat (length L) <= 2 ^ 24)%Z /\ ((length L <= 16)%nat \/ hilOk (map loopBox L)).

Lemma loops_query L ix : (0 < length L)%nat -> manageable L -> build defaultNodeSize (map loopBox L) = Ok ix -> forall l q,
  query defaultNodeSize ix (m_minX (lindex l)) (m_minY (lindex l)) (m_maxX (lindex l)) (m_maxY (lindex l)) [] = Ok q ->
  NoDup q /\ forall j, In j q <-> exists lj, nth_error L j = Some lj /\ overlap (loopBox l) (loopBox lj).
Proof.
  intros H0 [H1 H2] E l q Eq.
  destruct (C01_query_exact ROrd _ ROrdLaws defaultNodeSize (map loopBox L)) as (ix' & E' & HQ).
  - unfold sizesOk, defaultNodeSize. rewrite map_length. repeat split; lia.
  - apply List.Forall_forall. intros b _. unfold okBox. auto.
  - rewrite map_length. exact H2.
  - assert (Eo : Ok ix' = Ok ix) by (rewrite <- E'; exact E). injection Eo as ->. destruct (HQ (loopBox l) []) as (r & Er & Nr & Hr); [unfold okBox; auto|]. unfold loopBox in Er. cbn [bMinX bMinY bMaxX bMaxY] in Er.
    assert (Eo : Ok q = Ok ([] ++ r)) by (rewrite <- Er; symmetry; exact Eq). cbn [app] in Eo. injection Eo as ->. split; [exact Nr|]. intros j. rewrite Hr. split.
    + intros (b & Hb & Ho). rewrite nth_error_map in Hb. destruct (nth_error L j) as [lj|]; [|discriminate]. injection Hb as <-. eauto.
    + intros (lj & Hj & Ho). exists (loopBox lj). split; [|exact Ho]. rewrite nth_error_map, Hj. reflexivity.
Qed.

(** ** Collecting the slice points *)
Section Collect.
Context (o : islandsObj).
Let L := loopsOf o.
Definition related (x y : nat) : Prop := exists lx ly, nth_error L x = Some lx /\ nth_error L y = Some ly /\ overlap (loopBox lx) (loopBox ly).

Definition setOk (s : slicePointSet) : Prop := (loopIndex1 s < loopIndex2 s)%nat /\
  exists l1 l2, nth_error L (loopIndex1 s) = Some l1 /\ nth_error L (loopIndex2 s) = Some l2 /\ touching l1 l2 /\ forall x, In x (map lspIntr (slicePoints s)) <-> reported l1 l2 x.

Record Inv (P : nat -> nat -> Prop) (st : list (nat * nat) * list slicePointSet * list (list nat)) : Prop := {
  inv_vis : forall x y, In (x, y) (fst (fst st)) -> P x y;
  inv_done : forall x y, P x y -> x <> y -> In (x, y) (fst (fst st)) \/ In (y, x) (fst (fst st));
  inv_sets : forall s, In s (snd (fst st)) -> setOk s;
  inv_all : forall x y lx ly, P x y -> (x < y)%nat -> nth_error L x = Some lx -> nth_error L y = Some ly -> touching lx ly -> exists s, In s (snd (fst st)) /\ loopIndex1 s = x /\ loopIndex2 s = y;
  inv_len : length (snd st) = length L;
  inv_lk : forall a la n, nth_error (snd st) a = Some la -> (In n la <-> exists s, nth_error (snd (fst st)) n = Some s /\ (loopIndex1 s = a \/ loopIndex2 s = a)) }.

Lemma pairMem_In' a b l : pairMem a b l = true <-> In (a, b) l.
Proof.
  unfold pairMem. rewrite existsb_exists. split.
  - intros ([x y] & H & E). apply andb_true_iff in E. destruct E as [E1 E2]. apply Nat.eqb_eq in E1, E2. now subst.
  - intros H. exists (a, b). split; auto. now rewrite !Nat.eqb_refl.
Qed.

Lemma pts_exact l1 l2 intrs coinc pts : findIntersects defaultNodeSize (lpoly l1) (lpoly l2) (lindex l1) [] [] = Ok (intrs, coinc) ->
  (if negb (length coinc =? 0)%nat
   then let! cs := sortAndjoinCoincidentSlices coinc (lpoly l1) (lpoly l2) in Ok (map (fun x => mkLSP x false) intrs ++ map (fun x => mkLSP x false) (csStarts cs) ++ map (fun x => mkLSP x true) (csEnds cs))
   else Ok (map (fun x => mkLSP x false) intrs)) = Ok pts -> forall x, In x (map lspIntr pts) <-> reported l1 l2 x.
Proof.
  intros Ef Ep x. unfold reported. destruct (negb (length coinc =? 0)%nat) eqn:Ec.
  - apply bind_inv in Ep. destruct Ep as (cs & Ecs & Ep). injection Ep as <-. rewrite !map_app, !map_map. cbn [lspIntr]. rewrite !map_id, !in_app_iff. split.
    + intros H. exists intrs, coinc. split; [exact Ef|]. destruct H as [H|H]; [now left|right]. exists cs. split; [exact Ecs|exact H].
    + intros (i' & c' & E' & H). rewrite Ef in E'. injection E' as <- <-. destruct H as [H|(cs' & Ecs' & H)]; [now left|right]. rewrite Ecs in Ecs'. injection Ecs' as <-. exact H.
  - injection Ep as <-. rewrite map_map. cbn [lspIntr]. rewrite map_id. destruct coinc as [|c coinc]; [|discriminate]. split.
    + intros H. exists intrs, []. split; [exact Ef|now left].
    + intros (i' & c' & E' & H). rewrite Ef in E'. injection E' as <- <-. destruct H as [H|(cs' & Ecs' & H)]; [exact H|]. cbn [sortAndjoinCoincidentSlices] in Ecs'. injection Ecs' as <-. cbn [csStarts csEnds] in H. tauto.
Qed.

Lemma lookupPush_spec lk i x lk' : lookupPush lk i x = Ok lk' -> length lk' = length lk /\ forall a la, nth_error lk' a = Some la ->
  exists la0, nth_error lk a = Some la0 /\ ((a <> i /\ la = la0) \/ (a = i /\ la = la0 ++ [x])).
Proof.
  unfold lookupPush. intros E. apply bind_inv in E. destruct E as (li & Ei & E). apply rget_inv in Ei. apply rset_inv in E. destruct E as [Hi ->]. split; [now rewrite upd_length|]. intros j lj Hj.
  destruct (Nat.eq_dec i j) as [<-|Hne].
  - rewrite nth_error_upd_eq in Hj by auto. injection Hj as <-. exists li. auto.
  - rewrite nth_error_upd_ne in Hj by auto. exists lj. auto.
Qed.

Definition doneBy (i : nat) (pre : list nat) (x y : nat) : Prop := ((x < i)%nat /\ related x y) \/ (x = i /\ In y pre).

Lemma pair_step i li pre j st st' : nth_error L i = Some li -> related i j -> ~ In j pre -> (forall y, In y pre -> related i y) ->
  Inv (doneBy i pre) st -> slicePointsPair o i li st j = Ok st' -> Inv (doneBy i (pre ++ [j])) st'.
Proof.
  intros Hi Hrel Hnew Hpre I E. destruct st as [[vis sets] lk]. unfold slicePointsPair in E.
  assert (HP : forall x y, doneBy i (pre ++ [j]) x y <-> doneBy i pre x y \/ (x = i /\ y = j)).
  { intros x y. unfold doneBy. rewrite in_app_iff. cbn [In]. intuition congruence. }
  destruct (Nat.eqb_spec i j) as [<-|Hij].
  { injection E as <-. destruct I. constructor; auto.
    - intros x y H. apply HP. left. auto.
    - intros x y H Hne. apply HP in H. destruct H as [H|[-> ->]]; [auto|congruence].
    - intros x y lx ly H Hlt. apply HP in H. destruct H as [H|[-> ->]]; [eauto|lia]. }
  destruct (pairMem j i vis) eqn:Em.
  { injection E as <-. apply pairMem_In' in Em. destruct I as [I1 I2 I3 I4 I5 I6]. cbn [fst snd] in *. constructor; cbn [fst snd]; auto.
    - intros x y H. apply HP. left. auto.
    - intros x y H Hne. apply HP in H. destruct H as [H|[-> ->]]; [auto|]. now right.
    - intros x y lx ly H Hlt. apply HP in H. destruct H as [H|[-> ->]]; [eauto|]. exfalso. apply I1 in Em. destruct Em as [[Em _]|[Em _]]; lia. }
  assert (Hlt : (i < j)%nat).
  { destruct (le_lt_dec i j); [lia|]. exfalso. destruct I as [I1 I2 _ _ _ _]. cbn [fst snd] in *.
    destruct (I2 j i) as [H|H]; [|lia| |].
    - left. split; [lia|]. destruct Hrel as (a & b & A & B & C). exists b, a. split; [auto|]. split; [auto|]. now apply overlap_sym.
    - apply pairMem_In' in H. congruence.
    - apply I1 in H. destruct H as [[H _]|[_ H]]; [lia|contradiction]. }
  apply bind_inv in E. destruct E as (lj & Ej & E). apply getLoop_nth in Ej. fold L in Ej. apply bind_inv in E. destruct E as ([intrs coinc] & Ef & E).
  assert (Hov : overlap (loopBox li) (loopBox lj)) by (destruct Hrel as (a & b & A & B & C); rewrite Hi in A; rewrite Ej in B; injection A as <-; injection B as <-; exact C).
  destruct (negb (length intrs =? 0)%nat || negb (length coinc =? 0)%nat) eqn:Ene.
  - apply bind_inv in E. destruct E as (pts & Ep & E). apply bind_inv in E. destruct E as (lk1 & E1 & E). apply bind_inv in E. destruct E as (lk2 & E2 & E). injection E as <-.
    rewrite app_length in E1, E2. cbn [length] in E1, E2. replace (length sets + 1 - 1)%nat with (length sets) in E1, E2 by lia.
    pose proof (pts_exact _ _ _ _ _ Ef Ep) as Hpts. apply lookupPush_spec in E1. destruct E1 as [N1 L1]. apply lookupPush_spec in E2. destruct E2 as [N2 L2].
    assert (Ht : touching li lj). { split; [exact Hov|]. exists intrs, coinc. split; [exact Ef|]. destruct intrs; [|now left]. destruct coinc; [discriminate|now right]. }
    destruct I as [I1 I2 I3 I4 I5 I6]. cbn [fst snd] in *. constructor; cbn [fst snd].
    + intros x y [H|H]; apply HP; [injection H as -> ->; now right|left; auto].
    + intros x y H Hne. apply HP in H. destruct H as [H|[-> ->]]; [destruct (I2 x y H Hne); [left|right]; now right|left; now left].
    + intros s Hs. apply in_app_or in Hs. destruct Hs as [Hs|[<-|[]]]; [auto|]. split; [exact Hlt|]. exists li, lj. cbn [loopIndex1 loopIndex2 slicePoints]. auto.
    + intros x y lx ly H Hxy Hx Hy Hxt. apply HP in H. destruct H as [H|[-> ->]].
      * destruct (I4 x y lx ly H Hxy Hx Hy Hxt) as (s & Hs & E). exists s. split; [apply in_or_app; now left|exact E].
      * exists (mkSPS i j pts). split; [apply in_or_app; right; now left|]. auto.
    + congruence.
    + intros a la n Ha. destruct (L2 a la Ha) as (la1 & Ha1 & C2). destruct (L1 a la1 Ha1) as (la0 & Ha0 & C1). specialize (I6 a la0 n Ha0).
      assert (Hcase : In n la <-> In n la0 \/ (n = length sets /\ (a = i \/ a = j))).
      { destruct C2 as [[N2' ->]|[-> ->]]; destruct C1 as [[N1' ->]|[-> ->]]; rewrite ?in_app_iff; cbn [In]; intuition (try congruence; try lia). }
      rewrite Hcase, I6. split.
      * intros [(s & Es & Hs)|[-> Hc]].
        -- exists s. split; [|auto]. rewrite nth_error_app1; [auto|]. apply nth_error_Some. rewrite Es. discriminate.
        -- exists (mkSPS i j pts). split; [rewrite nth_error_app2, Nat.sub_diag by lia; reflexivity|]. cbn. intuition congruence.
      * intros (s & Es & Hs). destruct (lt_dec n (length sets)) as [Hn|Hn].
        -- rewrite nth_error_app1 in Es by exact Hn. left. eauto.
        -- right. rewrite nth_error_app2 in Es by lia. destruct (n - length sets)%nat as [|m] eqn:Em'; [|destruct m; discriminate]. injection Es as <-. cbn in Hs. split; [lia|intuition congruence].
  - injection E as <-. destruct I as [I1 I2 I3 I4 I5 I6]. cbn [fst snd] in *. constructor; cbn [fst snd]; auto.
    + intros x y [H|H]; apply HP; [injection H as -> ->; now right|left; auto].
    + intros x y H Hne. apply HP in H. destruct H as [H|[-> ->]]; [destruct (I2 x y H Hne); [left|right]; now right|left; now left].
    + intros x y lx ly H Hxy Hx Hy Hxt. apply HP in H. destruct H as [H|[-> ->]]; [eauto|]. exfalso. rewrite Hi in Hx. rewrite Ej in Hy. injection Hx as <-. injection Hy as <-.
      destruct Hxt as [_ (i' & c' & E' & H)]. rewrite Ef in E'. injection E' as <- <-. apply orb_false_iff in Ene. destruct Ene as [X Y]. destruct intrs; [|discriminate]. destruct coinc; [|discriminate]. destruct H; congruence.
Qed.

Lemma Inv_ext P Q st : (forall x y, P x y <-> Q x y) -> Inv P st -> Inv Q st.
Proof.
  intros H [I1 I2 I3 I4 I5 I6]. constructor; auto.
  - intros x y Hx. apply H. auto.
  - intros x y Hx. apply H in Hx. auto.
  - intros x y lx ly Hx. apply H in Hx. eauto.
Qed.

Lemma collect_exact o' ix : (0 < length L)%nat -> manageable L -> o_index o = Some ix -> build defaultNodeSize (map loopBox L) = Ok ix -> createSlicePoints o = Ok o' ->
  loopsOf o' = L /\ Inv related (o_visited o', o_sets o', o_lookup o').
Proof.
  intros H0 HM Eix Eb E. unfold createSlicePoints in E. rewrite Eix in E. cbn [ofOption bind] in E. apply bind_inv in E. destruct E as ([[vis sets] lk] & E & E'). injection E' as <-. split; [reflexivity|]. cbn [o_visited o_sets o_lookup].
  rewrite total_length in E. fold L in E.
  assert (Outer : forall n i st st', (i + n = length L)%nat -> Inv (doneBy i []) st ->
    mfold (fun st i => let! loop1 := getOffsetLoop o i in let index1 := lindex loop1 in
      let! q := query defaultNodeSize ix (m_minX index1) (m_minY index1) (m_maxX index1) (m_maxY index1) [] in mfold (slicePointsPair o i loop1) q st) (seq i n) st = Ok st' -> Inv (doneBy (i + n) []) st').
  { induction n as [|n IH]; intros i st st' Hn I Ef; cbn [seq mfold] in Ef; [injection Ef as <-; now rewrite Nat.add_0_r|]. apply bind_inv in Ef. destruct Ef as (st1 & E1 & Ef).
    replace (i + S n)%nat with (S i + n)%nat by lia. apply (IH (S i) st1 st'); [lia| |exact Ef].
    apply bind_inv in E1. destruct E1 as (li & Eli & E1). apply getLoop_nth in Eli. fold L in Eli. apply bind_inv in E1. destruct E1 as (q & Eq & E1).
    destruct (loops_query L ix H0 HM Eb li q Eq) as [Nq Hq].
    assert (Hq' : forall j, In j q <-> related i j).
    { intros j. rewrite Hq. unfold related. split; [intros (lj & A & B); eauto|]. intros (a & b & A & B & C). rewrite Eli in A. injection A as <-. eauto. }
    assert (Inner : forall suf pre s s', q = pre ++ suf -> Inv (doneBy i pre) s -> mfold (slicePointsPair o i li) suf s = Ok s' -> Inv (doneBy i q) s').
    { induction suf as [|j suf IHs]; intros pre s s' Esp Is Em; cbn [mfold] in Em; [injection Em as <-; rewrite app_nil_r in Esp; now subst pre|]. apply bind_inv in Em. destruct Em as (s1 & E2 & Em).
      apply (IHs (pre ++ [j]) s1 s'); [now rewrite <- app_assoc| |exact Em]. apply (pair_step i li pre j s s1 Eli); auto.
      - apply Hq'. rewrite Esp. apply in_or_app. right. now left.
      - rewrite Esp in Nq. apply NoDup_remove_2 in Nq. intros F. apply Nq. apply in_or_app. now left.
      - intros y Hy. apply Hq'. rewrite Esp. apply in_or_app. now left. }
    eapply Inv_ext; [|apply (Inner q [] st st1 eq_refl I E1)]. intros x y. unfold doneBy. rewrite Hq'. cbn [In]. split.
    - intros [[A B]|[-> B]]; left; split; auto; lia.
    - intros [[A B]|[_ []]]. destruct (Nat.eq_dec x i) as [->|]; [now right|left; split; [lia|auto]]. }
  eapply Inv_ext; [|apply (Outer (length L) 0%nat ([], [], repeat [] (length L)) (vis, sets, lk) eq_refl); [|exact E]].
  - intros x y. unfold doneBy. cbn [In plus]. split; [intros [[_ H]|[_ []]]; exact H|]. intros H. left. split; [|exact H]. destruct H as (a & _ & A & _). apply nth_error_Some. congruence.
  - constructor; cbn [fst snd].
    + intros x y [].
    + intros x y [[H _]|[_ []]]. lia.
    + intros s [].
    + intros x y lx ly [[H _]|[_ []]]. lia.
    + apply repeat_length.
    + intros a la n Ha. apply nth_error_In, repeat_spec in Ha. subst la. split; [intros []|]. intros (s & Hs & _). destruct n; discriminate.
Qed.
End Collect.

(** ** Cutting one loop *)
Section Cut.
Context (o : islandsObj) (vis : list (nat * nat)).
Let L := loopsOf o.
Hypothesis (HI : Inv o (related o) (vis, o_sets o, o_lookup o)).

Lemma touched_lookup i li lk : nth_error L i = Some li -> nth_error (o_lookup o) i = Some lk -> (lk = [] <-> ~ touched L i).
Proof.
  intros Hi Hlk. pose proof (inv_lk o _ _ HI i lk) as Hl. cbn [fst snd] in Hl. split.
  - intros -> (j & a & b & Ea & Eb & H). rewrite Hi in Ea. injection Ea as <-.
    assert (X : exists s, In s (o_sets o) /\ (loopIndex1 s = i \/ loopIndex2 s = i)).
    { destruct H as [[Hlt Ht]|[Hlt Ht]].
      - destruct (inv_all o _ _ HI i j li b) as (s & Hs & E1 & _); auto; [|exists s; auto]. exists li, b. split; [auto|]. split; [auto|apply Ht].
      - destruct (inv_all o _ _ HI j i b li) as (s & Hs & _ & E2); auto; [|exists s; auto]. exists b, li. split; [auto|]. split; [auto|apply Ht]. }
    destruct X as (s & Hs & Hx). apply In_nth_error in Hs. destruct Hs as (n & Hn). assert (F : In n []) by (apply (Hl n Hlk); eauto). destruct F.
  - intros Hn. destruct lk as [|n lk]; [reflexivity|]. exfalso. apply Hn. destruct (proj1 (Hl n Hlk) (or_introl eq_refl)) as (s & Es & Hs).
    apply nth_error_In in Es. destruct (inv_sets o _ _ HI s Es) as (Hlt & l1 & l2 & E1 & E2 & Ht & _). destruct Hs as [<-|<-].
    + exists (loopIndex2 s), l1, l2. split; [exact E1|]. split; [exact E2|]. left. auto.
    + exists (loopIndex1 s), l2, l1. split; [exact E2|]. split; [exact E1|]. right. auto.
Qed.

Lemma fill_exact i li m : nth_error L i = Some li -> fillDiss o i = Ok m -> keyed m /\ forall k p, tbl m k p <-> meets L i k p.
Proof.
  intros Hi E. unfold fillDiss in E. apply bind_inv in E. destruct E as (idxs & Ei & E). apply rget_inv in Ei.
  pose proof (fun n => inv_lk o _ _ HI i idxs n Ei) as Hl. cbn [fst snd] in Hl.
  set (cutOf := fun n k p => exists s x, nth_error (o_sets o) n = Some s /\ In x (map lspIntr (slicePoints s)) /\ ipos x = p /\ ((loopIndex1 s = i /\ sIndex1 x = k) \/ (loopIndex2 s = i /\ sIndex2 x = k))).
  assert (G : forall ns m0 m1, (forall n, In n ns -> In n idxs) -> keyed m0 -> mfold (fun m setIndex => let! s := rget (o_sets o) setIndex in
      if (i =? loopIndex1 s)%nat
      then Ok (fold_left (fun m p => mpush (sIndex1 (lspIntr p)) (mkDP (loopIndex2 s) (ipos (lspIntr p))) m) (slicePoints s) m)
      else Ok (fold_left (fun m p => mpush (sIndex2 (lspIntr p)) (mkDP (loopIndex1 s) (ipos (lspIntr p))) m) (slicePoints s) m)) ns m0 = Ok m1 ->
    keyed m1 /\ forall k p, tbl m1 k p <-> tbl m0 k p \/ exists n, In n ns /\ cutOf n k p).
  { clear E m. induction ns as [|n ns IH]; intros m0 m1 Hin Hk E; cbn [mfold] in E.
    - injection E as <-. split; [exact Hk|]. intros k p. split; [auto|]. intros [H|(n & [] & _)]. exact H.
    - apply bind_inv in E. destruct E as (m2 & E2 & E). apply bind_inv in E2. destruct E2 as (s & Es & E2). apply rget_inv in Es.
      assert (Hs : loopIndex1 s = i \/ loopIndex2 s = i) by (destruct (proj1 (Hl n) (Hin n (or_introl eq_refl))) as (s' & Es' & Hs); rewrite Es in Es'; injection Es' as <-; exact Hs).
      assert (Hlt : (loopIndex1 s < loopIndex2 s)%nat) by (apply (inv_sets o _ _ HI s), nth_error_In with n; exact Es).
      assert (X : keyed m2 /\ forall k p, tbl m2 k p <-> tbl m0 k p \/ cutOf n k p).
      { destruct (Nat.eqb_spec i (loopIndex1 s)) as [E1|Hne]; injection E2 as <-.
        - destruct (push_fold_tbl (fun p => sIndex1 (lspIntr p)) (fun p => mkDP (loopIndex2 s) (ipos (lspIntr p))) (slicePoints s) m0 Hk) as [K T]. split; [exact K|]. intros k p. rewrite T. cbn [dpos]. split.
          + intros [H|(x & Hx & A & B)]; [now left|right]. exists s, (lspIntr x). split; [auto|]. split; [now apply in_map|]. split; [auto|]. left. auto.
          + intros [H|(s' & x & Es' & Hx & B & C)]; [now left|right]. rewrite Es in Es'. injection Es' as <-. apply in_map_iff in Hx. destruct Hx as (y & <- & Hy). exists y. split; [auto|]. split; [|auto]. destruct C as [[_ C]|[C _]]; [exact C|lia].
        - destruct (push_fold_tbl (fun p => sIndex2 (lspIntr p)) (fun p => mkDP (loopIndex1 s) (ipos (lspIntr p))) (slicePoints s) m0 Hk) as [K T]. split; [exact K|]. intros k p. rewrite T. cbn [dpos]. split.
          + intros [H|(x & Hx & A & B)]; [now left|right]. exists s, (lspIntr x). split; [auto|]. split; [now apply in_map|]. split; [auto|]. right. intuition congruence.
          + intros [H|(s' & x & Es' & Hx & B & C)]; [now left|right]. rewrite Es in Es'. injection Es' as <-. apply in_map_iff in Hx. destruct Hx as (y & <- & Hy). exists y. split; [auto|]. split; [|auto]. destruct C as [[C _]|[_ C]]; [congruence|exact C]. }
      destruct X as [K2 T2]. destruct (IH m2 m1 (fun n Hn => Hin n (or_intror Hn)) K2 E) as [K1 T1]. split; [exact K1|]. intros k p. rewrite T1, T2. split.
      + intros [[H|H]|(n' & Hn' & H)]; [auto|right; exists n; split; [now left|auto]|right; exists n'; split; [now right|auto]].
      + intros [H|(n' & [<-|Hn'] & H)]; [auto|auto|right; eauto]. }
  destruct (G idxs [] m (fun n H => H)) as [K T]; [split; [constructor|intros k l []]|exact E|]. split; [exact K|]. intros k p. rewrite T. split.
  - intros [(l & q & [] & _)|(n & Hn & s & x & Es & Hx & Ep & Hc)]. apply nth_error_In in Es. destruct (inv_sets o _ _ HI s Es) as (Hlt & l1 & l2 & E1 & E2 & Ht & Hr). apply Hr in Hx. fold L in E1, E2.
    destruct Hc as [[Hc Hk]|[Hc Hk]].
    + exists (loopIndex2 s), l1, l2, x. rewrite <- Hc. split; [exact E1|]. split; [exact E2|]. split; [exact Ep|]. left. auto.
    + exists (loopIndex1 s), l2, l1, x. rewrite <- Hc. split; [exact E2|]. split; [exact E1|]. split; [exact Ep|]. right. auto.
  - intros (j & a & b & x & Ea & Eb & Ep & H). right. destruct H as [(Hlt & Ht & Hr & Hk)|(Hlt & Ht & Hr & Hk)].
    + destruct (inv_all o _ _ HI i j a b) as (s & Hs & E1 & E2); auto; [exists a, b; split; [auto|split; [auto|apply Ht]]|]. cbn [fst snd] in Hs.
      destruct (inv_sets o _ _ HI s Hs) as (_ & l1 & l2 & F1 & F2 & _ & Hrep). fold L in F1, F2. rewrite E1, Ea in F1. rewrite E2, Eb in F2. injection F1 as <-. injection F2 as <-.
      apply In_nth_error in Hs. destruct Hs as (n & Hn). exists n. split; [apply Hl; eauto|]. exists s, x. split; [exact Hn|]. split; [now apply Hrep|]. split; [exact Ep|]. left. auto.
    + destruct (inv_all o _ _ HI j i b a) as (s & Hs & E1 & E2); auto; [exists b, a; split; [auto|split; [auto|apply Ht]]|]. cbn [fst snd] in Hs.
      destruct (inv_sets o _ _ HI s Hs) as (_ & l1 & l2 & F1 & F2 & _ & Hrep). fold L in F1, F2. rewrite E1, Eb in F1. rewrite E2, Ea in F2. injection F1 as <-. injection F2 as <-.
      apply In_nth_error in Hs. destruct Hs as (n & Hn). exists n. split; [apply Hl; eauto|]. exists s, x. split; [exact Hn|]. split; [now apply Hrep|]. split; [exact Ep|]. right. auto.
Qed.
End Cut.

(** ** Which loops are kept, which stretches *)
Definition indexed (l : offsetLoop) : Prop := createApproxSpatialIndex (lpoly l) = Ok (lindex l) /\ indexable (lpoly l).
Definition cutApart (L : list offsetLoop) (i : nat) (l : offsetLoop) : Prop :=
  (forall k, (k < length (vertexes (lpoly l)))%nat -> far (pos (at_ (lpoly l) k)) (pos (nextV (lpoly l) k))) /\
  (forall k p v, meets L i k p -> In v (vertexes (lpoly l)) -> far p (pos v)) /\
  (forall k p q, meets L i k p -> meets L i k q -> dist (pos (at_ (lpoly l) k)) p = dist (pos (at_ (lpoly l) k)) q -> p = q).

Lemma valid_total input skip pt d : (forall l, In l (ccwLoops input ++ cwLoops input) -> indexed l) -> exists b, pointOnOffsetValid input skip pt d = Ok b /\ (b = true <-> farFromOthers input d skip pt).
Proof.
  intros Hin. unfold pointOnOffsetValid, farFromOthers. rewrite <- app_length. set (all := ccwLoops input ++ cwLoops input) in *.
  assert (G : forall n i b, (i + n = length all)%nat -> exists b', mfold (fun ok i => if negb ok then Ok false else if (i =? skip)%nat then Ok true else
      let! parent := getParentLoop input i in pointValidForOffset defaultNodeSize (lpoly parent) d (lindex parent) pt) (seq i n) b = Ok b' /\
    (b' = true <-> b = true /\ forall j l, (i <= j)%nat -> inputLoop input j l -> j <> skip -> pointValidForOffset defaultNodeSize (lpoly l) d (lindex l) pt = Ok true)).
  { induction n as [|n IH]; intros i b Hn; cbn [seq mfold].
    - exists b. split; [reflexivity|]. split; [|tauto]. intros ->. split; [auto|]. intros j l Hj Hl. unfold inputLoop in Hl. fold all in Hl. assert (j < length all)%nat by (apply nth_error_Some; congruence). lia.
    - destruct b; cbn [negb].
      2:{ cbn [bind]. destruct (IH (S i) false ltac:(lia)) as (b' & -> & Hb). exists b'. split; [reflexivity|]. rewrite Hb. intuition discriminate. }
      destruct (Nat.eqb_spec i skip) as [->|Hne]; cbn [bind].
      { destruct (IH (S skip) true ltac:(lia)) as (b' & -> & Hb). exists b'. split; [reflexivity|]. rewrite Hb. split; intros [_ H]; (split; [auto|]); intros j l Hj; [|apply H; lia].
        intros Hl Hs. apply (H j l); auto. lia. }
      destruct (nth_error all i) as [l|] eqn:El; [|apply nth_error_None in El; lia].
      assert (Ep : getParentLoop input i = Ok l) by (apply getParent_input; exact El). rewrite Ep. cbn [bind].
      destruct (Hin l (nth_error_In _ _ El)) as [Eix Hix]. destruct (tests_ok (lpoly l) d Hix) as (ix & Eix' & [Hp _]). rewrite Eix in Eix'. injection Eix' as <-. destruct (Hp pt) as (b & Eb). cbn [mkOrigTests ptValid] in Eb.
      rewrite Eb. cbn [bind]. destruct (IH (S i) b ltac:(lia)) as (b' & -> & Hb). exists b'. split; [reflexivity|]. rewrite Hb. split.
      + intros [-> H]. split; [auto|]. intros j l' Hj Hl Hs. destruct (Nat.eq_dec j i) as [->|]; [|apply (H j l'); auto; lia]. unfold inputLoop in Hl. fold all in Hl. rewrite El in Hl. injection Hl as <-. exact Eb.
      + intros [_ H]. split; [|intros j l' Hj; apply H; lia]. specialize (H i l (le_n i) El Hne). congruence. }
  destruct (G (length all) 0%nat true eq_refl) as (b & E & Hb). exists b. split; [exact E|]. rewrite Hb. split.
  - intros [_ H] i l Hl Hs. apply (H i l); auto. lia.
  - intros H. split; [auto|]. intros j l _. apply H.
Qed.

(** all stretches of a loop that pass the test, in the order of the segments *)
Definition keptStretches (pl : polyline) (cs : list (nat * slicePoint)) (pred : vec -> bool) : list polyline :=
  map (mkPline false) (flat_map (fun k => filter (PropsSlices.accepted pred) (stretches pl cs k)) (seq 0 (length (vertexes pl)))).

Lemma segments_perm {X} pl cs (m : lookup) (F : nat -> list X) : representsSorted pl cs m -> (forall k p, In (k, p) cs -> (k < length (vertexes pl))%nat) -> (forall k, sortedCuts pl cs k = [] -> F k = []) ->
  Permutation (flat_map F (map fst m)) (flat_map F (seq 0 (length (vertexes pl)))).
Proof.
  intros [Nm Sm] Hk HF.
  assert (Hz : forall k, ~ In k (map fst m) -> F k = []).
  { intros k Hn. apply HF. destruct (sortedCuts pl cs k) as [|p l] eqn:E; [reflexivity|]. exfalso. apply Hn. apply in_map_iff. exists (k, p :: l). split; [auto|]. apply Sm. rewrite E. split; [auto|discriminate]. }
  assert (Hlt : forall k, In k (map fst m) -> (k < length (vertexes pl))%nat).
  { intros k H. apply in_map_iff in H. destruct H as ([k0 l] & E & H). cbn in E. subst k0. apply Sm in H. destruct H as [-> H].
    destruct (sortedCuts pl cs k) as [|p t] eqn:E; [contradiction|]. apply (Hk k p). apply (sortedCuts_In pl). rewrite E. now left. }
  set (inM := fun k => existsb (Nat.eqb k) (map fst m)).
  assert (HinM : forall k, inM k = true <-> In k (map fst m)).
  { intros k. unfold inM. rewrite existsb_exists. split; [intros (x & Hx & E); apply Nat.eqb_eq in E; now subst|]. intros H. exists k. split; [auto|apply Nat.eqb_refl]. }
  transitivity (flat_map F (filter inM (seq 0 (length (vertexes pl))))).
  + apply Permutation_flat_map. apply NoDup_Permutation; [auto|apply NoDup_filter, seq_NoDup|]. intros k. rewrite filter_In, HinM, in_seq. split; [|tauto]. intros H. split; [|auto]. specialize (Hlt k H). lia.
  + assert (E : flat_map F (filter inM (seq 0 (length (vertexes pl)))) = flat_map F (seq 0 (length (vertexes pl)))); [|now rewrite E].
    generalize (seq 0 (length (vertexes pl))) as l0. induction l0 as [|k l0 IH]; [reflexivity|]. cbn [filter flat_map]. destruct (inM k) eqn:E; cbn [flat_map]; [now rewrite IH|].
    rewrite Hz by (rewrite <- HinM; congruence). exact IH.
Qed.

Lemma far_not_fuzzy x y : far x y -> fuzzyEqual x y realPrecision = false /\ fuzzyEqual y x realPrecision = false.
Proof.
  intros F. split; apply not_true_is_false; intros E; rewrite prec_R in E; apply fuzzyEqual_R in E; destruct E as [E1 E2]; destruct F; try lra; rewrite Rabs_minus_sym in E1, E2; lra.
Qed.

Section One.
Context (o : islandsObj) (vis : list (nat * nat)) (input : loopSet) (d : R).
Let L := loopsOf o.
Hypothesis (HI : Inv o (related o) (vis, o_sets o, o_lookup o)) (Hin : forall l, In l (ccwLoops input ++ cwLoops input) -> indexed l).

Definition cutsFor (i : nat) : list (nat * slicePoint) :=
  match nth_error L i with Some l => match fillDiss o i with Ok m0 => match sortDiss (lpoly l) m0 with Ok m => cutsOf m | _ => [] end | _ => [] end | None => [] end.

Lemma slices_exact ob i li res ob' res' : loopsOf ob = L -> o_sets ob = o_sets o -> o_lookup ob = o_lookup o -> nth_error L i = Some li -> cutApart L i li ->
  createSlicesFromLoop ob input i d res = Ok (ob', res') ->
  (forall k c, In (k, c) (cutsFor i) <-> spStart c = false /\ meets L i k (spPos c)) /\
  Permutation (map dsPline res') (map dsPline res ++ keptStretches (lpoly li) (cutsFor i) (asPred (fun pt => pointOnOffsetValid input (parentLoopIndex li) pt d))).
Proof.
  intros EL Es Elk Hi (Ha1 & Ha2 & Ha3) E. unfold createSlicesFromLoop in E. apply bind_inv in E. destruct E as (l & El & E). apply getLoop_nth in El. rewrite EL, Hi in El. injection El as <-.
  apply bind_inv in E. destruct E as (m0 & E0 & E). assert (E0' : fillDiss o i = Ok m0) by (rewrite <- E0; unfold fillDiss; now rewrite Es, Elk).
  apply bind_inv in E. destruct E as (m & Em & E). apply bind_inv in E. destruct E as (res1 & Ef & E). injection E as _ <-.
  destruct (fill_exact o vis HI i li m0 Hi E0') as [K0 T0]. fold L in T0.
  destruct (sort_tbl _ _ _ Em K0) as (K & T & S).
  assert (R : representsSorted (lpoly li) (cutsOf m) (toTable m)).
  { apply (sorted_represents _ m0 m Em K0). intros k p q Hp Hq. apply T0 in Hp, Hq. now apply (Ha3 k). }
  assert (Ecs : cutsFor i = cutsOf m) by (unfold cutsFor; rewrite Hi, E0', Em; reflexivity). rewrite Ecs.
  assert (HC : forall k c, In (k, c) (cutsOf m) <-> spStart c = false /\ meets L i k (spPos c)).
  { intros k c. rewrite cutsOf_In. split.
    - intros (l & p & Hl & Hp & ->). split; [reflexivity|]. apply T0, T. exists l, p. auto.
    - intros [Hs Hm]. apply T0, T in Hm. destruct Hm as (l & p & Hl & Hp & E). exists l, p. split; [auto|]. split; [auto|]. destruct c as [q b]. cbn [spStart spPos] in *. subst b. unfold toSP. now rewrite E. }
  split; [exact HC|].
  assert (Hk : forall k p, In (k, p) (cutsOf m) -> (k < length (vertexes (lpoly li)))%nat) by (intros k c Hc; apply cutsOf_In in Hc; destruct Hc as (l & p & Hl & _); now apply (S k l)).
  assert (Hsep : sep (lpoly li) (cutsOf m)).
  { split.
    - intros k Hk'. exact (proj1 (far_not_fuzzy _ _ (Ha1 k Hk'))).
    - intros k c j Hc Hj. apply HC in Hc. apply far_not_fuzzy, (Ha2 k); [apply Hc|]. unfold at_. now apply nth_In. }
  set (pred := asPred (fun pt => pointOnOffsetValid input (parentLoopIndex li) pt d)).
  set (F := fun k => filter (PropsSlices.accepted pred) (stretches (lpoly li) (cutsOf m) k)).
  assert (G : forall ms r r', (forall kl, In kl ms -> In kl m) -> mfold (dissOne (fun pt => pointOnOffsetValid input (parentLoopIndex li) pt d) i (lpoly li) m) ms r = Ok r' ->
    map dsPline r' = map dsPline r ++ map (mkPline false) (flat_map F (map fst ms))).
  { induction ms as [|[k ps] ms IH]; intros r r' Hms Er; cbn [mfold] in Er; [injection Er as <-; cbn; now rewrite app_nil_r|]. apply bind_inv in Er. destruct Er as (r1 & E1 & Er).
    apply dissOne_slice in E1. assert (Hkp : In (k, map toSP ps) (toTable m)) by (unfold toTable; apply in_map_iff; exists (k, ps); split; [reflexivity|apply Hms; now left]).
    rewrite (sliceOne_exact _ _ _ _ _ _ _ R Hk Hsep Hkp) in E1. injection E1 as E1. rewrite (IH r1 r' (fun kl H => Hms kl (or_intror H)) Er), <- E1. cbn [map fst flat_map]. fold (F k). now rewrite map_app, <- app_assoc. }
  rewrite (G _ _ _ (fun kl H => Permutation_in _ (order_perm _ m) H) Ef). apply Permutation_app_head. unfold keptStretches. apply Permutation_map.
  rewrite (Permutation_flat_map F (Permutation_map fst (order_perm _ m))).
  replace (map fst m) with (map fst (toTable m)) by (unfold toTable; rewrite map_map; reflexivity). apply (segments_perm _ _ _ F R Hk). intros k E. unfold F, stretches. now rewrite E.
Qed.
End One.

(** ** The result *)
Lemma addStitched_all st : forall r r', mfold addStitched st r = Ok r' -> exists nc nw, ccwLoops r' = ccwLoops r ++ nc /\ cwLoops r' = cwLoops r ++ nw /\
  map lpoly nc = filter (fun p => Rleb (1 / 10000) (getArea p)) st /\ map lpoly nw = filter (fun p => Rleb (getArea p) (- (1 / 10000))) st /\
  forall l, In l (nc ++ nw) -> parentLoopIndex l = 0%nat /\ createApproxSpatialIndex (lpoly l) = Ok (lindex l).
Proof.
  induction st as [|p st IH]; intros r r' E; cbn [mfold] in E.
  - injection E as <-. exists [], []. rewrite !app_nil_r. split; [auto|]. split; [auto|]. split; [auto|]. split; [auto|]. intros l [].
  - apply bind_inv in E. destruct E as (r1 & E1 & E). destruct (IH r1 r' E) as (nc & nw & A & B & C & D & F). clear IH E. unfold addStitched in E1. rewrite t0_R in E1.
    assert (El : (tlit 1 10000 : R) = 1 / 10000) by (unfold tlit; rcbn; reflexivity). rewrite El in E1. clear El. cbn [tabs tltb ROps] in E1.
    destruct (Rltb (Rabs (getArea p)) (1 / 10000)) eqn:T1.
    + injection E1 as <-. exists nc, nw. split; [auto|]. split; [auto|]. apply Rltb_spec, Rabs_def2 in T1. cbn [filter].
      assert (Rleb (1 / 10000) (getArea p) = false) as -> by (apply Rleb_false; lra). assert (Rleb (getArea p) (- (1 / 10000)) = false) as -> by (apply Rleb_false; lra). auto.
    + apply bind_inv in E1. destruct E1 as (ix & Eix & E1). apply Rltb_false in T1. cbn [filter]. destruct (Rltb (getArea p) 0) eqn:T2; injection E1 as <-; cbn [ccwLoops cwLoops] in *.
      * exists nc, (mkLoop 0 p ix :: nw). split; [auto|]. split; [rewrite B, <- app_assoc; reflexivity|]. apply Rltb_spec in T2. rewrite Rabs_left in T1 by lra.
        assert (Rleb (1 / 10000) (getArea p) = false) as -> by (apply Rleb_false; lra). assert (Rleb (getArea p) (- (1 / 10000)) = true) as -> by (apply Rleb_spec; lra). split; [auto|]. split; [cbn [map lpoly]; now rewrite D|].
        intros l Hl. apply in_app_or in Hl. destruct Hl as [Hl|[<-|Hl]]; [apply F, in_or_app; now left|split; [reflexivity|exact Eix]|apply F, in_or_app; now right].
      * exists (mkLoop 0 p ix :: nc), nw. split; [rewrite A, <- app_assoc; reflexivity|]. split; [auto|]. apply Rltb_false in T2. rewrite Rabs_pos_eq in T1 by lra.
        assert (Rleb (1 / 10000) (getArea p) = true) as -> by (apply Rleb_spec; lra). assert (Rleb (getArea p) (- (1 / 10000)) = false) as -> by (apply Rleb_false; lra). split; [cbn [map lpoly]; now rewrite C|]. split; [auto|].
        intros l [<-|Hl]; [split; [reflexivity|exact Eix]|now apply F].
Qed.

(** the members of [L] whose number satisfies [keep] *)
Definition selected {X} (keep : nat -> bool) (L : list X) : list X := map snd (filter (fun il => keep (fst il)) (numbered L)).
Lemma selected_snoc {X} keep (l : list X) x : selected keep (l ++ [x]) = selected keep l ++ (if keep (length l) then [x] else []).
Proof.
  unfold selected, numbered. rewrite app_length, seq_app. cbn [length plus seq].
  assert (G : forall (a b : list nat) (c e : list X), length a = length c -> combine (a ++ b) (c ++ e) = combine a c ++ combine b e).
  { clear. induction a as [|y a IH]; intros b [|z c] e H; try discriminate; [reflexivity|]. cbn [app combine]. f_equal. apply IH. now injection H. }
  rewrite G by now rewrite seq_length. rewrite filter_app, map_app. cbn [combine filter fst]. now destruct (keep (length l)).
Qed.

Lemma firstn_snoc {X} (l : list X) n x : nth_error l n = Some x -> firstn (S n) l = firstn n l ++ [x].
Proof. revert n. induction l as [|y l IH]; intros [|n] H; try discriminate; cbn in *; [now injection H as ->|]. now rewrite (IH n H). Qed.

Lemma perm_app3 {X} (a b c d : list X) : Permutation a (b ++ c) -> Permutation b d -> Permutation a (d ++ c).
Proof. intros H1 H2. rewrite H1. now apply Permutation_app_tail. Qed.

(** What compute() does, exactly.  [L] is the list of the offset loops (offsetLoops).  When every meeting point of two loops is away from the loops' vertices (cutApart):
    - a loop that touches no other one is in the result iff its first vertex passes the distance test against all input loops but its parent;
    - every other loop is cut exactly at its meeting points with the other loops, and of the stretches between consecutive meeting points those are kept whose last segment's midpoint passes that test;
    - the kept stretches are stitched together, and of the resulting polylines those with an area of at least 1e-4 are added, counter clockwise and clockwise ones apart. *)
Theorem C60_islands o input d o' r L : (forall l, In l (ccwLoops input ++ cwLoops input) -> indexed l) ->
  offsetLoops input (Rabs d) L -> manageable L -> (forall i l, nth_error L i = Some l -> cutApart L i l) ->
  compute o input d = Ok (o', r) ->
  exists (keep : nat -> bool) (cuts : nat -> list (nat * slicePoint)) (passes : nat -> vec -> bool) slices st nc nw,
    (forall i l, nth_error L i = Some l -> (keep i = true <-> ~ touched L i /\ exists v vs, vertexes (lpoly l) = v :: vs /\ farFromOthers input (Rabs d) (parentLoopIndex l) (pos v))) /\
    (forall i l k c, nth_error L i = Some l -> (In (k, c) (cuts i) <-> spStart c = false /\ meets L i k (spPos c))) /\
    (forall i l q, nth_error L i = Some l -> (passes i q = true <-> farFromOthers input (Rabs d) (parentLoopIndex l) q)) /\
    Permutation slices (flat_map (fun il => keptStretches (lpoly (snd il)) (cuts (fst il)) (passes (fst il))) (numbered L)) /\
    stitchOrderedSlices slices stitchFirstAvailable sliceJoinThreshold = Ok st /\
    ccwLoops r = filter (fun l => negb (Rltb (getArea (lpoly l)) 0)) (selected keep L) ++ nc /\ map lpoly nc = filter (fun p => Rleb (1 / 10000) (getArea p)) st /\
    cwLoops r = filter (fun l => Rltb (getArea (lpoly l)) 0) (selected keep L) ++ nw /\ map lpoly nw = filter (fun p => Rleb (getArea p) (- (1 / 10000))) st /\
    (forall l, In l (nc ++ nw) -> parentLoopIndex l = 0%nat /\ createApproxSpatialIndex (lpoly l) = Ok (lindex l)).
Proof.
  intros Hin HL HM Hcut E. unfold compute in E. apply bind_inv in E. destruct E as (o1 & E1 & E). cbn [tabs ROps] in E1, E. pose proof (offsets_exact _ _ _ _ E1) as HL1.
  assert (EL1 : loopsOf o1 = L).
  { destruct HL as [M1 I1], HL1 as [M2 I2]. fold (loopsOf o1) in M2, I2. rewrite <- M2 in M1. clear -M1 I1 I2. revert M1 I1 I2. generalize (loopsOf o1) as A. revert L. induction L as [|a L IH]; intros [|b A] M1 I1 I2; try discriminate; [reflexivity|].
    cbn [map] in M1. injection M1 as Ma Mb M1. f_equal; [|apply IH; auto; intros; [apply I1|apply I2]; now right]. pose proof (I1 a (or_introl eq_refl)) as Ia. pose proof (I2 b (or_introl eq_refl)) as Ib.
    rewrite Mb, Ib in Ia. injection Ia as Ia. destruct a, b; simpl in Ma, Mb, Ia; congruence. }
  rewrite total_length, EL1 in E. destruct (Nat.eqb_spec (length L) 0) as [H0|H0].
  { injection E as <- <-. destruct L; [|discriminate]. exists (fun _ => false), (fun _ => []), (fun _ _ => false), [], [], [], [].
    split; [intros [|i] l Hi; discriminate|]. split; [intros [|i] l k c Hi; discriminate|]. split; [intros [|i] l q Hi; discriminate|]. split; [reflexivity|]. split; [reflexivity|]. repeat (split; [reflexivity|]). intros l []. }
  apply bind_inv in E. destruct E as (o2 & E2 & E). destruct (loopsIndex_build _ _ E2) as (ix & Eix & Eb). apply index_same in E2. destruct E2 as [E2 E2']. assert (EL2 : loopsOf o2 = L) by (unfold loopsOf; rewrite E2, E2'; exact EL1).
  apply bind_inv in E. destruct E as (o3 & E3 & E). rewrite EL1 in Eb. rewrite <- EL2 in Eb, HM.
  destruct (collect_exact o2 o3 ix ltac:(rewrite EL2; lia) HM Eix Eb E3) as [EL3 HI3]. rewrite EL2 in HM, EL3. clear Eb.
  assert (HI : Inv o3 (related o3) (o_visited o3, o_sets o3, o_lookup o3)).
  { destruct HI3 as [J1 J2 J3 J4 J5 J6]. unfold related, setOk in *. rewrite EL2 in *. constructor; unfold related, setOk; rewrite ?EL3; auto. }
  clear HI3. pose proof E3 as E3s. apply slicePoints_same in E3s. destruct E3s as [E3c E3w].
  apply bind_inv in E. destruct E as ([[o4 r4] s4] & E4 & E).
  set (passes := fun i => match nth_error L i with Some l => asPred (fun pt => pointOnOffsetValid input (parentLoopIndex l) pt (Rabs d)) | None => fun _ => false end).
  set (keep := fun i => match nth_error (o_lookup o3) i with Some [] => match nth_error L i with Some l => match vertexes (lpoly l) with v :: _ => passes i (pos v) | [] => false end | None => false end | _ => false end).
  set (cuts := cutsFor o3).
  assert (Hpass : forall i l q, nth_error L i = Some l -> (passes i q = true <-> farFromOthers input (Rabs d) (parentLoopIndex l) q)).
  { intros i l q Hi. unfold passes. rewrite Hi. unfold asPred. destruct (valid_total input (parentLoopIndex l) q (Rabs d) Hin) as (b & -> & Hb). exact Hb. }
  assert (Hlen : length (o_lookup o3) = length L) by (pose proof (inv_len _ _ _ HI) as Hl; cbn [snd] in Hl; now rewrite EL3 in Hl).
  assert (Hlk : forall i l, nth_error L i = Some l -> exists lk, nth_error (o_lookup o3) i = Some lk).
  { intros i l Hi. destruct (nth_error (o_lookup o3) i) as [lk|] eqn:Elk; [eauto|]. apply nth_error_None in Elk. assert (i < length L)%nat by (apply nth_error_Some; congruence). lia. }
  assert (Hkeep : forall i l, nth_error L i = Some l -> (keep i = true <-> ~ touched L i /\ exists v vs, vertexes (lpoly l) = v :: vs /\ farFromOthers input (Rabs d) (parentLoopIndex l) (pos v))).
  { intros i l Hi. destruct (Hlk i l Hi) as (lk & Elk). pose proof (touched_lookup o3 _ HI i l lk) as Ht. rewrite EL3 in Ht. specialize (Ht Hi Elk). unfold keep. rewrite Elk, Hi. split.
    - destruct lk; [|discriminate]. destruct (vertexes (lpoly l)) as [|v vs] eqn:Ev; [discriminate|]. intros Hp. split; [now apply Ht|]. exists v, vs. split; [auto|]. now apply (Hpass i l).
    - intros [Hn (v & vs & Ev & Hf)]. apply Ht in Hn. subst lk. rewrite Ev. now apply (Hpass i l). }
  assert (Hsign : forall i l, nth_error L i = Some l -> Rltb (getArea (lpoly l)) 0 = negb (i <? length (o_ccw o3))%nat).
  { rewrite E3c, E2. destruct (offsets_classified _ _ _ _ E1) as [HC HW]. rewrite List.Forall_forall in HC, HW. rewrite <- EL1. unfold loopsOf. intros i l Hi. destruct (Nat.ltb_spec i (length (o_ccw o1))) as [Hlt|Hge]; cbn [negb].
    - rewrite nth_error_app1 in Hi by exact Hlt. apply nth_error_In, HC in Hi. destruct Hi as (_ & A & _). rewrite <- neg_R. exact A.
    - rewrite nth_error_app2 in Hi by exact Hge. apply nth_error_In, HW in Hi. destruct Hi as (_ & A & _). rewrite <- neg_R. exact A. }
  set (J := fun n (st : islandsObj * loopSet * list dissSlice) => let '(ob, rb, sb) := st in loopsOf ob = L /\ o_sets ob = o_sets o3 /\ o_lookup ob = o_lookup o3 /\ o_ccw ob = o_ccw o3 /\
    ccwLoops rb = filter (fun l => negb (Rltb (getArea (lpoly l)) 0)) (selected keep (firstn n L)) /\ cwLoops rb = filter (fun l => Rltb (getArea (lpoly l)) 0) (selected keep (firstn n L)) /\
    (forall i l k c, (i < n)%nat -> nth_error L i = Some l -> (In (k, c) (cuts i) <-> spStart c = false /\ meets L i k (spPos c))) /\
    Permutation (map dsPline sb) (flat_map (fun il => keptStretches (lpoly (snd il)) (cuts (fst il)) (passes (fst il))) (numbered (firstn n L)))).
  assert (Step : forall n st st', (n < length L)%nat -> J n st -> processLoop input (Rabs d) st n = Ok st' -> J (S n) st').
  { intros n [[ob rb] sb] st' Hn (J1 & J2 & J3 & J3' & J4 & J5 & J6 & J7) Ep. destruct (nth_error L n) as [l|] eqn:El; [|apply nth_error_None in El; lia].
    assert (Hlf : length (firstn n L) = n) by (rewrite firstn_length; lia).
    assert (Hnum : numbered (firstn (S n) L) = numbered (firstn n L) ++ [(n, l)]).
    { rewrite (firstn_snoc _ _ _ El). unfold numbered. rewrite app_length, seq_app. cbn [length plus seq]. rewrite Hlf.
      assert (G : forall X Y (a b : list X) (c e : list Y), length a = length c -> combine (a ++ b) (c ++ e) = combine a c ++ combine b e).
      { clear. induction a as [|y a IH]; intros b [|z c] e H; try discriminate; [reflexivity|]. cbn [app combine]. f_equal. apply IH. now injection H. }
      rewrite G by (rewrite seq_length; now rewrite Hlf). reflexivity. }
    destruct (Hlk n l El) as (lk & Elk). unfold processLoop in Ep. rewrite J3 in Ep. apply bind_inv in Ep. destruct Ep as (lk' & Elk' & Ep). apply rget_inv in Elk'. rewrite Elk in Elk'. injection Elk' as <-.
    pose proof (touched_lookup o3 _ HI n l lk) as Ht. rewrite EL3 in Ht. specialize (Ht El Elk).
    destruct (Nat.eqb_spec (length lk) 0) as [Hl0|Hl0].
    - assert (lk = []) by (destruct lk; [auto|discriminate]). subst lk. assert (Hnt : ~ touched L n) by now apply Ht.
      assert (Hnm : forall k p, ~ meets L n k p).
      { intros k p (j & a & b & x & A & B & _ & C). apply Hnt. exists j, a, b. split; [auto|]. split; [auto|]. destruct C as [(C1 & C2 & _)|(C1 & C2 & _)]; auto. }
      assert (Ecut : cuts n = []). { unfold cuts, cutsFor. rewrite EL3, El. unfold fillDiss, rget. rewrite Elk. cbn [bind mfold]. reflexivity. }
      assert (Ks : keptStretches (lpoly l) (cuts n) (passes n) = []).
      { rewrite Ecut. unfold keptStretches. assert (G : forall ks, flat_map (fun k => filter (PropsSlices.accepted (passes n)) (stretches (lpoly l) [] k)) ks = []); [|now rewrite G].
        induction ks as [|k ks IH]; [reflexivity|]. cbn [flat_map]. rewrite IH, app_nil_r. unfold stretches. destruct (sortedCuts (lpoly l) [] k) as [|c t] eqn:Ec; [reflexivity|]. exfalso.
        assert (F : In (k, c) []) by (apply (sortedCuts_In (lpoly l)); rewrite Ec; now left). destruct F. }
      assert (Hcs : forall i li k c, (i < S n)%nat -> nth_error L i = Some li -> (In (k, c) (cuts i) <-> spStart c = false /\ meets L i k (spPos c))).
      { intros i li k c Hi Hli. destruct (Nat.eq_dec i n) as [->|]; [|apply (J6 i li); auto; lia]. rewrite Ecut. split; [intros []|]. intros [_ F]. now apply Hnm in F. }
      assert (Hp7 : Permutation (map dsPline sb) (flat_map (fun il => keptStretches (lpoly (snd il)) (cuts (fst il)) (passes (fst il))) (numbered (firstn (S n) L)))).
      { rewrite Hnum, flat_map_app. cbn [flat_map fst snd]. rewrite Ks. cbn [app]. now rewrite app_nil_r. }
      apply bind_inv in Ep. destruct Ep as (l' & El' & Ep). apply getLoop_nth in El'. rewrite J1, El in El'. injection El' as <-. apply bind_inv in Ep. destruct Ep as (v0 & Ev0 & Ep). apply bind_inv in Ep. destruct Ep as (ok & Eok & Ep).
      unfold vget in Ev0. apply rget_inv in Ev0. destruct (vertexes (lpoly l)) as [|v vs] eqn:Ev; [discriminate|]. injection Ev0 as ->.
      assert (Hk : keep n = ok). { unfold keep. rewrite Elk, El, Ev. unfold passes. rewrite El. unfold asPred. now rewrite Eok. }
      assert (Hsel : selected keep (firstn (S n) L) = selected keep (firstn n L) ++ (if ok then [l] else [])) by (rewrite (firstn_snoc _ _ _ El), selected_snoc, Hlf, Hk; reflexivity).
      specialize (Hsign n l El). rewrite J3' in Ep. destruct ok; cbn [negb] in Ep.
      + destruct (n <? length (o_ccw o3))%nat; injection Ep as <-; unfold J; (split; [exact J1|]); (split; [exact J2|]); (split; [exact J3|]); (split; [exact J3'|]); cbn [ccwLoops cwLoops];
          rewrite Hsel, !filter_app; cbn [filter]; rewrite Hsign; cbn [negb]; rewrite ?app_nil_r, J4, J5; auto.
      + injection Ep as <-. unfold J. rewrite Hsel, app_nil_r. auto 10.
    - apply bind_inv in Ep. destruct Ep as ([od sd] & Es & Ep). injection Ep as <-.
      assert (EL3' : loopsOf ob = loopsOf o3) by (rewrite J1, EL3; reflexivity).
      pose proof (slices_exact o3 _ input (Rabs d) HI ob n l sb od sd EL3' J2 J3) as Hs. rewrite EL3 in Hs. destruct (Hs El (Hcut n l El) Es) as [Hc Hp]. fold cuts in Hc, Hp.
      pose proof (slices_same _ _ _ _ _ _ _ Es) as [A B].
      assert (Hk : keep n = false). { unfold keep. rewrite Elk. destruct lk; [contradiction|reflexivity]. }
      assert (Hsel : selected keep (firstn (S n) L) = selected keep (firstn n L)) by (rewrite (firstn_snoc _ _ _ El), selected_snoc, Hlf, Hk; apply app_nil_r).
      assert (Eo : o_sets od = o_sets ob /\ o_lookup od = o_lookup ob). { unfold createSlicesFromLoop in Es. do 4 (apply bind_inv in Es; destruct Es as (? & _ & Es)). injection Es as <- _. auto. }
      unfold J. split; [unfold loopsOf in *; congruence|]. split; [rewrite (proj1 Eo); exact J2|]. split; [rewrite (proj2 Eo); exact J3|]. split; [congruence|]. rewrite Hsel. split; [exact J4|]. split; [exact J5|]. split.
      + intros i li k c Hi Hli. destruct (Nat.eq_dec i n) as [->|]; [apply Hc|apply (J6 i li); auto; lia].
      + rewrite Hnum, flat_map_app. cbn [flat_map fst snd]. rewrite app_nil_r. unfold passes at 2. rewrite El. apply (perm_app3 _ _ _ _ Hp J7). }
  assert (Hall : J (length L) (o4, r4, s4)).
  { assert (EL : totalOffsetLoopsCount o3 = length L) by (rewrite total_length, EL3; reflexivity). rewrite EL in E4.
    assert (G : forall n i st st', (i + n = length L)%nat -> J i st -> mfold (processLoop input (Rabs d)) (seq i n) st = Ok st' -> J (i + n)%nat st').
    { induction n as [|n IH]; intros i st st' Hn Hj Ef; cbn [seq mfold] in Ef; [injection Ef as <-; now rewrite Nat.add_0_r|]. apply bind_inv in Ef. destruct Ef as (st1 & Es & Ef).
      replace (i + S n)%nat with (S i + n)%nat by lia. apply (IH (S i) st1 st'); [lia| |exact Ef]. apply (Step i st); auto. lia. }
    apply (G (length L) 0%nat (o3, mkLoopSet [] [], []) _ eq_refl); [|exact E4]. unfold J. split; [exact EL3|]. repeat (split; [reflexivity|]). split; [|reflexivity]. intros i l k c Hi. lia. }
  destruct Hall as (_ & _ & _ & _ & H4 & H5 & H6 & H7). rewrite firstn_all in H4, H5, H7.
  apply bind_inv in E. destruct E as (st & Est & E). apply bind_inv in E. destruct E as (r5 & E5 & E). injection E as <- <-.
  destruct (addStitched_all _ _ _ E5) as (nc & nw & A & B & C & D & F). exists keep, cuts, passes, (map dsPline s4), st, nc, nw.
  split; [exact Hkeep|]. split; [intros i l k c Hi; apply (H6 i l); [apply nth_error_Some; congruence|exact Hi]|]. split; [exact Hpass|]. split; [exact H7|]. split; [exact Est|].
  split; [rewrite A, H4; reflexivity|]. split; [exact C|]. split; [rewrite B, H5; reflexivity|]. split; [exact D|exact F].
Qed.
End Proof.
