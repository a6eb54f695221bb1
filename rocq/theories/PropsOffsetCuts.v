(** * The tables of cuts the offset slicing works with *)
From Coq Require Import ZArith Reals Lra Lia List Bool Arith Permutation Sorted.
From Verif Require Import Base Num MathUtils PlineSegment SpatialIndex Polyline Intersects Combine Offset StdLaws RGeom Spec PropsMath ArcGeom Polar PropsSegment PropsClosest PropsIntr PropsPlineIntr PropsPolyline PropsWinding PropsRegion PropsPlineIndex PropsFindIntr PropsSelfIntr PropsCoincident PropsSlices PropsStitch PropsCombine PropsPieces PropsTrace PropsBoolOps PropsOffsetStitch PropsOffsetSlices PropsParallel PropsParallelTotal PropsOffsetRuns.
Import ListNotations.
Open Scope R_scope.

(** ** Tables *)
Definition ptsAt (ps : list (nat * vec)) (k : nat) : list vec := map snd (filter (fun c => (fst c =? k)%nat) ps).
Definition repV (ps : list (nat * vec)) (m : vlookup) : Prop := NoDup (map fst m) /\ forall k l, In (k, l) m <-> l = ptsAt ps k /\ l <> [].

Lemma ptsAt_snoc ps k v k' : ptsAt (ps ++ [(k, v)]) k' = ptsAt ps k' ++ (if (k =? k')%nat then [v] else []).
Proof. unfold ptsAt. rewrite filter_app, map_app. cbn [filter fst]. now destruct (Nat.eqb_spec k k'). Qed.

Lemma ptsAt_In ps k p : In p (ptsAt ps k) <-> In (k, p) ps.
Proof.
  unfold ptsAt. rewrite in_map_iff. split.
  - intros ([k0 p0] & E & H). cbn in E. subst. apply filter_In in H. destruct H as [H E]. apply Nat.eqb_eq in E. cbn in E. now subst.
  - intros H. exists (k, p). split; [auto|]. apply filter_In. cbn. now rewrite Nat.eqb_refl.
Qed.

(** what pushing does to a table *)
Definition pushed {V} (k : nat) (v : V) (m m' : list (nat * list V)) : Prop := NoDup (map fst m') /\
  (forall k' l, In (k', l) m' <-> (k' <> k /\ In (k', l) m) \/ (k' = k /\ ((exists l0, In (k, l0) m /\ l = l0 ++ [v]) \/ (~ In k (map fst m) /\ l = [v])))).

Lemma pushed_rep ps k v m m' : repV ps m -> pushed k v m m' -> repV (ps ++ [(k, v)]) m'.
Proof.
  intros [N S] [N' S']. split; [exact N'|]. intros k' l. rewrite S', ptsAt_snoc. clear N' S'. destruct (Nat.eqb_spec k k') as [<-|Hk].
  - split.
    + intros [[H _]|[_ [(l0 & H & ->)|[Hn ->]]]]; [congruence| |].
      * apply S in H. destruct H as [-> _]. split; [auto|]. intros E. apply app_eq_nil in E. destruct E; discriminate.
      * split; [|discriminate]. destruct (ptsAt ps k) as [|a l] eqn:E; [reflexivity|]. exfalso. apply Hn. apply in_map_iff. exists (k, a :: l). split; [auto|]. apply S. rewrite E. split; [auto|discriminate].
    + intros [-> _]. right. split; [auto|]. destruct (ptsAt ps k) as [|a l] eqn:E.
      * right. split; [|auto]. intros H. apply in_map_iff in H. destruct H as ([k1 l1] & E1 & H). cbn in E1. subst k1. apply S in H. destruct H as [-> H]. now apply H.
      * left. exists (a :: l). split; [|auto]. apply S. rewrite E. split; [auto|discriminate].
  - rewrite app_nil_r. rewrite S. split; [intros [[_ H]|[E _]]; [auto|congruence]|]. intros H. left. split; [auto|]. exact H.
Qed.

Lemma push_rep ps k v m : repV ps m -> repV (ps ++ [(k, v)]) (mpush k v m).
Proof. intros H. apply (pushed_rep ps k v m); [auto|]. apply mpush_spec, H. Qed.

Lemma mpushSorted_sorted {V} k v (m : list (nat * list V)) : StronglySorted lt (map fst m) -> StronglySorted lt (map fst (mpushSorted k v m)).
Proof.
  induction m as [|[k0 l0] m IH]; intros S; cbn [mpushSorted]; [repeat constructor|]. cbn [map fst] in S. apply StronglySorted_inv in S. destruct S as [S F].
  destruct (Nat.eqb_spec k k0) as [<-|Hne]; [cbn [map fst]; constructor; auto|]. destruct (Nat.ltb_spec k k0).
  - cbn [map fst]. constructor; [constructor; auto|]. constructor; [auto|]. eapply List.Forall_impl; [|exact F]. cbn beta. intros; lia.
  - cbn [map fst]. constructor; [auto|]. apply List.Forall_forall. intros x Hx. apply mpushSorted_keys in Hx. rewrite List.Forall_forall in F. destruct Hx as [->|Hx]; [lia|auto].
Qed.

Lemma sorted_nodup (l : list nat) : StronglySorted lt l -> NoDup l.
Proof. induction 1 as [|k l S IH F]; constructor; auto. intros Hin. rewrite List.Forall_forall in F. specialize (F k Hin). lia. Qed.

Lemma mpushSorted_pushed {V} k v (m : list (nat * list V)) : StronglySorted lt (map fst m) -> pushed k v m (mpushSorted k v m).
Proof.
  intros S. split; [apply sorted_nodup, mpushSorted_sorted, S|]. induction m as [|[k0 l0] m IH]; intros k' l; cbn [mpushSorted].
  - cbn [In map fst]. split; [intros [E|[]]; injection E as <- <-; right; auto|]. intros [[_ []]|[-> [(l0 & [] & _)|[_ ->]]]]. now left.
  - cbn [map fst] in S. apply StronglySorted_inv in S. destruct S as [S F]. rewrite List.Forall_forall in F.
    assert (NI : forall x y, In (x, y) m -> (k0 < x)%nat) by (intros x y H; apply F, in_map_iff; exists (x, y); auto).
    destruct (Nat.eqb_spec k k0) as [<-|Hne].
    + cbn [In map fst]. split.
      * intros [E|H]; [injection E as <- <-; right; split; [auto|]; left; exists l0; auto|]. left. split; [|auto]. apply NI in H. lia.
      * intros [[Hk [E|H]]|[-> [(l1 & [E|H] & ->)|[Hn ->]]]].
        -- injection E as <- <-. contradiction.
        -- auto.
        -- injection E as ->. auto.
        -- apply NI in H. lia.
        -- exfalso. apply Hn. auto.
    + destruct (Nat.ltb_spec k k0).
      * cbn [In map fst]. split.
        -- intros [E|[E|H1]]; [injection E as <- <-; right; split; [auto|]; right; split; [|auto]; intros [->|H2]; [lia|]; apply F in H2; lia|injection E as <- <-; left; split; [lia|auto]|].
           left. split; [apply NI in H1; lia|auto].
        -- intros [[Hk [E|H1]]|[-> [(l1 & [E|H1] & ->)|[Hn ->]]]]; auto.
           ++ injection E as <- <-. lia.
           ++ apply NI in H1. lia.
      * specialize (IH S). cbn [In]. rewrite IH. cbn [map fst In]. split.
        -- intros [E|[[H1 H2]|[-> [(l1 & H1 & ->)|[Hn ->]]]]].
           ++ injection E as <- <-. left. split; auto.
           ++ left. auto.
           ++ right. split; [auto|]. left. exists l1. auto.
           ++ right. split; [auto|]. right. split; [|auto]. intros [E|H2]; auto.
        -- intros [[H1 [E|H2]]|[-> [(l1 & [E|H1] & ->)|[Hn ->]]]].
           ++ left. exact E.
           ++ right. left. auto.
           ++ injection E as <- <-. contradiction.
           ++ right. right. split; [auto|]. left. exists l1. auto.
           ++ right. right. split; [auto|]. right. split; [|auto]. intros H1. apply Hn. auto.
Qed.

Lemma pushSorted_rep ps k v m : repV ps m /\ StronglySorted lt (map fst m) -> repV (ps ++ [(k, v)]) (mpushSorted k v m) /\ StronglySorted lt (map fst (mpushSorted k v m)).
Proof. intros [H S]. split; [apply (pushed_rep ps k v m); [auto|]; now apply mpushSorted_pushed|now apply mpushSorted_sorted]. Qed.

Lemma rep_nil : repV [] [].
Proof. split; [constructor|]. intros k l. cbn. split; [intros []|intros [-> H]; now apply H]. Qed.

(** the cuts made by the self crossings, on both segments *)
Definition selfCuts (sis : list pIntr) : list (nat * vec) := flat_map (fun si => [(sIndex1 si, ipos si); (sIndex2 si, ipos si)]) sis.

Lemma self_rep sis : forall ps m, repV ps m -> repV (ps ++ selfCuts sis) (fold_left (fun m si => mpush (sIndex2 si) (ipos si) (mpush (sIndex1 si) (ipos si) m)) sis m).
Proof.
  induction sis as [|s sis IH]; intros ps m H; cbn [fold_left selfCuts flat_map]; [now rewrite app_nil_r|].
  change ([(sIndex1 s, ipos s); (sIndex2 s, ipos s)] ++ flat_map (fun si => [(sIndex1 si, ipos si); (sIndex2 si, ipos si)]) sis) with ([(sIndex1 s, ipos s)] ++ [(sIndex2 s, ipos s)] ++ selfCuts sis).
  rewrite !app_assoc. apply IH, push_rep, push_rep, H.
Qed.

Definition repS ps m := repV ps m /\ StronglySorted lt (map fst m).
Lemma selfS_rep sis : forall ps m, repS ps m -> repS (ps ++ selfCuts sis) (fold_left (fun m si => mpushSorted (sIndex2 si) (ipos si) (mpushSorted (sIndex1 si) (ipos si) m)) sis m).
Proof.
  induction sis as [|s sis IH]; intros ps m H; cbn [fold_left selfCuts flat_map]; [now rewrite app_nil_r|].
  change ([(sIndex1 s, ipos s); (sIndex2 s, ipos s)] ++ flat_map (fun si => [(sIndex1 si, ipos si); (sIndex2 si, ipos si)]) sis) with ([(sIndex1 s, ipos s)] ++ [(sIndex2 s, ipos s)] ++ selfCuts sis).
  rewrite !app_assoc. apply IH, pushSorted_rep, pushSorted_rep, H.
Qed.

(** the cuts made by the other polyline's crossings *)
Definition otherCuts (is : list pIntr) : list (nat * vec) := map (fun si => (sIndex1 si, ipos si)) is.
Lemma otherS_rep sis : forall ps m, repS ps m -> repS (ps ++ otherCuts sis) (fold_left (fun m si => mpushSorted (sIndex1 si) (ipos si) m) sis m).
Proof.
  induction sis as [|s sis IH]; intros ps m H; cbn [fold_left otherCuts map]; [now rewrite app_nil_r|].
  change ((sIndex1 s, ipos s) :: map (fun si => (sIndex1 si, ipos si)) sis) with ([(sIndex1 s, ipos s)] ++ otherCuts sis).
  rewrite !app_assoc. apply IH, pushSorted_rep, H.
Qed.

(** ** Sorting *)
Lemma sorted_unique {A} (key : A -> R) (l1 l2 : list A) : Permutation l1 l2 -> StronglySorted (fun a b => key a <= key b) l1 -> StronglySorted (fun a b => key a <= key b) l2 ->
  (forall a b, In a l1 -> In b l1 -> key a = key b -> a = b) -> l1 = l2.
Proof.
  revert l2. induction l1 as [|a l1 IH]; intros l2 P S1 S2 Inj.
  - apply Permutation_nil in P. now subst.
  - destruct l2 as [|b l2]; [apply Permutation_sym, Permutation_nil in P; discriminate|].
    apply StronglySorted_inv in S1, S2. destruct S1 as [S1 F1], S2 as [S2 F2]. rewrite List.Forall_forall in F1, F2.
    assert (a = b).
    { apply Inj; [now left|apply (Permutation_in _ (Permutation_sym P)); now left|]. apply Rle_antisym.
      - assert (H : In b (a :: l1)) by (apply (Permutation_in _ (Permutation_sym P)); now left). destruct H as [->|H]; [lra|auto].
      - assert (H : In a (b :: l2)) by (apply (Permutation_in _ P); now left). destruct H as [->|H]; [lra|auto]. }
    subst b. f_equal. apply IH; auto.
    + now apply Permutation_cons_inv in P.
    + intros x y Hx Hy. apply Inj; now right.
Qed.

Definition withAt (ps : list (nat * vec)) : list (nat * slicePoint) := map (fun c => (fst c, atP (snd c))) ps.
Lemma withAt_In ps k c : In (k, c) (withAt ps) <-> exists p, c = atP p /\ In (k, p) ps.
Proof.
  unfold withAt. rewrite in_map_iff. split.
  - intros ([k0 p] & E & H). injection E as <- <-. eauto.
  - intros (p & -> & H). exists (k, p). auto.
Qed.
Lemma withAt_cutsAt ps k : cutsAt (withAt ps) k = map atP (ptsAt ps k).
Proof.
  unfold cutsAt, ptsAt, withAt. induction ps as [|[k0 p] ps IH]; [reflexivity|]. cbn [map filter fst snd]. destruct (k0 =? k)%nat; cbn [map snd]; [f_equal|]; exact IH.
Qed.

Section Sort.
Context {SL : StdLib} {SLaws : StdLaws SL}.

Lemma sortV_sorted (v : vec) l : StronglySorted (fun a b => dist v a <= dist v b) (std_sort (fun a b => tltb (distSquared a v) (distSquared b v)) l).
Proof.
  assert (W : strictWeak (fun a b : vec => tltb (distSquared a v) (distSquared b v))).
  { apply (strictWeak_key (fun x y : R => Rltb x y) (fun a => distSquared a v)). split.
    - intros a. apply Rltb_false. lra.
    - intros a b c. rewrite !Rltb_spec. lra.
    - intros a b c. rewrite !Rltb_false. lra. }
  pose proof (sort_sorted _ _ l W) as S. induction S as [|a l' S IH F]; constructor; auto.
  eapply List.Forall_impl; [|exact F]. intros b Hb. rcbn. rbool. unfold distSquared, dot, vsub in Hb. rcbn. unfold dist. apply sqrt_le_1_alt. nra.
Qed.

Lemma sorted_map {A B} (f : A -> B) (P : B -> B -> Prop) l : StronglySorted (fun a b => P (f a) (f b)) l -> StronglySorted P (map f l).
Proof. induction 1 as [|a l S IH F]; cbn [map]; constructor; auto. apply List.Forall_forall. intros x Hx. apply in_map_iff in Hx. destruct Hx as (y & <- & Hy). rewrite List.Forall_forall in F. auto. Qed.

Lemma sortV_table raw ps m : repV ps m -> (forall k p, In (k, p) ps -> (k < length (vertexes raw))%nat) ->
  (forall k p q, In (k, p) ps -> In (k, q) ps -> dist (pos (at_ raw k)) p = dist (pos (at_ raw k)) q -> p = q) ->
  exists m', sortVLookup raw m = Ok m' /\ tableOf raw (withAt ps) m' /\ map fst m' = map fst m.
Proof.
  intros [N S] Hk Inj.
  exists (map (fun kl : nat * list vec => (fst kl, std_sort (fun a b => tltb (distSquared a (pos (at_ raw (fst kl)))) (distSquared b (pos (at_ raw (fst kl))))) (snd kl))) m).
  assert (Key : forall k, map atP (std_sort (fun a b => tltb (distSquared a (pos (at_ raw k))) (distSquared b (pos (at_ raw k)))) (ptsAt ps k)) = sortedCuts raw (withAt ps) k).
  { intros k. destruct (C33_sorted raw (withAt ps) k) as [P1 S1]. rewrite withAt_cutsAt in P1. symmetry.
    apply (sorted_unique (fun c => dist (pos (at_ raw k)) (spPos c))); [|exact S1| |].
    - etransitivity; [exact P1|]. apply Permutation_map, Permutation_sym, sort_perm.
    - apply sorted_map. apply sortV_sorted.
    - intros a b Ha Hb E. apply sortedCuts_In, withAt_In in Ha, Hb. destruct Ha as (p & -> & Ha), Hb as (q & -> & Hb). f_equal. now apply (Inj k). }
  split; [|split; [split|]].
  - assert (Hm : forall k l, In (k, l) m -> (k < length (vertexes raw))%nat).
    { intros k l H. apply S in H. destruct H as [-> H]. destruct (ptsAt ps k) as [|p t] eqn:E; [now elim H|]. apply (Hk k p), ptsAt_In. rewrite E. now left. }
    clear N S. unfold sortVLookup. induction m as [|[k l] m IH]; [reflexivity|]. cbn [mmap map fst snd].
    rewrite vget_at by (apply (Hm k l); now left). cbn [bind]. rewrite IH by (intros; apply (Hm k0 l0); now right). reflexivity.
  - rewrite map_map. cbn [fst]. exact N.
  - intros k l. rewrite in_map_iff. split.
    + intros ([k0 l0] & E & H). cbn [fst snd] in E. injection E as <- <-. apply S in H. destruct H as [-> H]. split; [apply Key|].
      intros E. apply H. apply Permutation_nil. rewrite <- E. apply sort_perm.
    + intros [E H]. exists (k, ptsAt ps k). rewrite <- Key in E. cbn [fst snd].
      assert (l = std_sort (fun a b => tltb (distSquared a (pos (at_ raw k))) (distSquared b (pos (at_ raw k)))) (ptsAt ps k)) as ->.
      { assert (Inj' : forall x y : list vec, map atP x = map atP y -> x = y).
        { induction x as [|a x IHx]; intros [|b y] Em; [reflexivity|discriminate|discriminate|]. cbn [map] in Em. injection Em as -> Em. f_equal. now apply IHx. }
        now apply Inj'. }
      split; [reflexivity|]. apply S. split; [auto|]. intros E'. apply H. rewrite E'.
      apply Permutation_nil, Permutation_sym, sort_perm.
  - rewrite map_map. reflexivity.
Qed.
End Sort.

(** ** The points where a polyline meets itself *)
(** q is the vertex at which segment j follows segment i, or the other way round *)
Definition sharedVertex (pl : polyline) (i j : nat) (q : vec) : Prop :=
  (j = (i + 1) mod length (vertexes pl) /\ q = pos (vert pl j 0))%nat \/ (i = (j + 1) mod length (vertexes pl) /\ q = pos (vert pl i 0))%nat.

(** two different segments pass through q, other than by following each other there *)
Definition doublePoint (pl : polyline) (q : vec) : Prop :=
  exists i j, (i < length (vertexes pl))%nat /\ (j < length (vertexes pl))%nat /\ i <> j /\
    onSeg (vert pl i 0) (vert pl i 1) q /\ onSeg (vert pl j 0) (vert pl j 1) q /\ ~ sharedVertex pl i j q.

(** the pairwise intersections of the segments of the polyline are exact, apart from the vertices at which they follow each other *)
Definition exactSelf (pl : polyline) : Prop :=
  forall i j, (i < length (vertexes pl))%nat -> (j < length (vertexes pl))%nat -> i <> j ->
    overlapsOf (vert pl i 0) (vert pl i 1) (vert pl j 0) (vert pl j 1) = [] /\
    forall q, ~ sharedVertex pl i j q -> (In q (crossPoints (vert pl i 0) (vert pl i 1) (vert pl j 0) (vert pl j 1)) <-> onSeg (vert pl i 0) (vert pl i 1) q /\ onSeg (vert pl j 0) (vert pl j 1) q).

Section Self.
Context {SL : StdLib} {SLaws : StdLaws SL}.
Context (pl : polyline) (X : vec -> Prop).
Let n := length (vertexes pl).
Hypothesis (Hc : isClosed pl = true) (H3 : (3 <= n)%nat) (Hix : indexable pl) (Hsm : smallBulges pl) (Hex : exactSelf pl) (Hsp : spaced pl X) (HX : forall q, doublePoint pl q -> X q).

Lemma self_next i : (i < n)%nat -> nextI pl i = ((i + 1) mod n)%nat.
Proof. intros Hi. unfold nextI. fold n. rewrite <- (Nat.mod_small i n) at 1 by auto. rewrite next_mod by lia. now rewrite Nat.add_1_r. Qed.
Lemma self_vert i : (i < n)%nat -> vert pl i 0 = at_ pl i /\ vert pl i 1 = at_ pl (nextI pl i) /\ In (vert pl i 0, vert pl i 1) (pathSegs pl).
Proof. intros Hi. apply seg_at; auto. fold n. lia. Qed.

Lemma self_exact : exists ix sis, createApproxSpatialIndex pl = Ok ix /\ allSelfIntersects defaultNodeSize pl [] ix = Ok sis /\
  (forall k p, In (k, p) (selfCuts sis) -> (k < n)%nat /\ onSeg (vert pl k 0) (vert pl k 1) p /\ doublePoint pl p) /\
  (forall k q, (k < n)%nat -> onSeg (vert pl k 0) (vert pl k 1) q -> doublePoint pl q -> In (k, q) (selfCuts sis)).
Proof.
  destruct (C46_consecutive_pairs pl [] H3) as (L1 & _ & L2). cbn [app] in L1. set (loc := flat_map (consecutivePoints pl) (consecutivePairs pl)) in *.
  destruct (C31_each_pair_once pl loc H3 Hix) as (ix & tested & E1 & E2 & _ & T1 & T2).
  exists ix, (loc ++ flat_map (selfPoints pl) tested). split; [exact E1|].
  assert (NS : segCount pl = n) by (rewrite segCount_eq, Hc; [reflexivity|fold n; lia]). rewrite NS in L2.
  split; [|]. { unfold allSelfIntersects. rewrite L1. cbn [bind]. exact E2. }
  assert (Mod : forall i, (i < n)%nat -> ((i + 1) mod n = if S i =? n then 0 else S i)%nat).
  { intros i Hi. rewrite Nat.add_1_r. destruct (Nat.eqb_spec (S i) n) as [->|]; [apply Nat.mod_same; lia|apply Nat.mod_small; lia]. }
  assert (Hnn : forall i, (i < n)%nat -> (((i + 1) mod n + 1) mod n <> i)%nat).
  { intros i Hi E. rewrite (Mod ((i + 1) mod n)%nat), Mod in E by (try apply Nat.mod_upper_bound; lia). destruct (Nat.eqb_spec (S i) n).
    - destruct (Nat.eqb_spec 1 n); lia.
    - destruct (Nat.eqb_spec (S (S i)) n); lia. }
  assert (Hn1 : forall i, (i < n)%nat -> ((i + 1) mod n <> i)%nat).
  { intros i Hi E. rewrite Mod in E by auto. destruct (Nat.eqb_spec (S i) n); lia. }
  assert (Inj : forall i j, (i < n)%nat -> (j < n)%nat -> ((i + 1) mod n = (j + 1) mod n)%nat -> i = j).
  { intros i j Hi Hj E. rewrite !Mod in E by auto. destruct (Nat.eqb_spec (S i) n), (Nat.eqb_spec (S j) n); lia. }
  assert (Farv : forall q i, X q -> (i < n)%nat -> far q (pos (at_ pl i))).
  { intros q i Hq Hi. apply (proj1 (proj2 Hsp)); [unfold at_; now apply nth_In|auto]. }
  assert (NSm : forall x y, far x y -> same y x = false).
  { intros x y F. apply far_sym in F. apply not_true_is_false. intros S. unfold same in S. apply fuzzyEqual_R in S. destruct F; lra. }
  split.
  - intros k p Hin. unfold selfCuts in Hin. apply in_flat_map in Hin. destruct Hin as (x & Hx & Hk).
    assert (G : (sIndex1 x < n)%nat /\ (sIndex2 x < n)%nat /\ sIndex1 x <> sIndex2 x /\ onSeg (vert pl (sIndex1 x) 0) (vert pl (sIndex1 x) 1) (ipos x) /\
      onSeg (vert pl (sIndex2 x) 0) (vert pl (sIndex2 x) 1) (ipos x) /\ ~ sharedVertex pl (sIndex1 x) (sIndex2 x) (ipos x)).
    { apply in_app_or in Hx. destruct Hx as [Hx|Hx]; apply in_flat_map in Hx; destruct Hx as ([a b] & Hab & Hx).
      - apply L2 in Hab. destruct Hab as (Ha & Hb & ->). rewrite self_next in Hx, Hb by auto. set (b := ((a + 1) mod n)%nat) in *.
        destruct (self_vert a Ha) as (A0 & A1 & PA). destruct (self_vert b Hb) as (B0 & B1 & PB). rewrite self_next in A1 by auto. fold b in A1.
        destruct (Hex a b Ha Hb (fun E => Hn1 a Ha (eq_sym E))) as [O C]. rewrite A0, A1, B0, B1 in O, C.
        unfold consecutivePoints in Hx. rewrite O in Hx. cbn [map] in Hx. rewrite app_nil_r in Hx.
        replace (fuzzyEqual (pos (at_ pl a)) (pos (at_ pl b)) (1 / 100000)) with false in Hx.
        2: { symmetry. apply far_fuzzy. rewrite <- A0, <- A1. apply (proj1 Hsp). exact PA. }
        apply in_map_iff in Hx. destruct Hx as (q & <- & Hq). cbn [sIndex1 sIndex2 ipos]. apply filter_In in Hq. destruct Hq as [Hq Hf].
        assert (NSh : ~ sharedVertex pl a b q).
        { intros [[_ E]|[E _]].
          - rewrite B0 in E. subst q. apply negb_true_iff in Hf. rewrite <- not_true_iff_false, fuzzyEqual_R in Hf. apply Hf. rewrite !Rminus_diag_eq, Rabs_R0 by reflexivity. lra.
          - fold n in E. apply (Hnn a Ha). fold b. auto. }
        apply C in Hq; [|exact NSh]. rewrite A0, A1, B0, B1. split; [auto|]. split; [auto|]. split; [|tauto]. intros E. now apply (Hn1 a Ha).
      - destruct (T1 a b Hab) as [(Ha & Hb & Hs & _) _]. rewrite NS in Ha, Hb.
        destruct (self_vert a Ha) as (A0 & A1 & PA). destruct (self_vert b Hb) as (B0 & B1 & PB).
        assert (Nab : a <> b) by (intros E; apply Hs; now left).
        destruct (Hex a b Ha Hb Nab) as [O C]. rewrite A0, A1, B0, B1 in O, C.
        unfold selfPoints in Hx. rewrite O in Hx. cbn [flat_map] in Hx. rewrite app_nil_r in Hx. apply in_map_iff in Hx. destruct Hx as (q & <- & Hq). cbn [sIndex1 sIndex2 ipos].
        apply filter_In in Hq. destruct Hq as [Hq _].
        assert (NSh : ~ sharedVertex pl a b q).
        { intros [[E _]|[E _]]; apply Hs; unfold shareVertex; fold n in E; rewrite <- self_next in E by auto; auto. }
        apply C in Hq; [|exact NSh]. rewrite A0, A1, B0, B1. tauto. }
    destruct G as (G1 & G2 & G3 & G4 & G5 & G6).
    assert (D : doublePoint pl (ipos x)) by (exists (sIndex1 x), (sIndex2 x); auto 7).
    destruct Hk as [E|[E|[]]]; injection E as <- <-; auto.
  - intros k q Hk Ok Dq. pose proof (HX q Dq) as Xq.
    assert (NSh : forall i j, (i < n)%nat -> (j < n)%nat -> ~ sharedVertex pl i j q).
    { intros i j Hi Hj [[_ E]|[_ E]]; destruct (self_vert i Hi) as (I0 & _); destruct (self_vert j Hj) as (J0 & _); [rewrite J0 in E; apply (far_ne _ _ (Farv q j Xq Hj))|rewrite I0 in E; apply (far_ne _ _ (Farv q i Xq Hi))]; exact E. }
    assert (exists j, (j < n)%nat /\ j <> k /\ onSeg (vert pl j 0) (vert pl j 1) q) as (j & Hj & Njk & Oj).
    { destruct Dq as (a & b & Ha & Hb & Nab & Oa & Ob & _). destruct (Nat.eq_dec a k) as [->|Na]; [exists b|exists a]; auto. }
    destruct (self_vert k Hk) as (K0 & K1 & PK). destruct (self_vert j Hj) as (J0 & J1 & PJ).
    assert (Fin : forall a b, (a < n)%nat -> (b < n)%nat -> a <> b -> onSeg (vert pl a 0) (vert pl a 1) q -> onSeg (vert pl b 0) (vert pl b 1) q ->
      (b = nextI pl a -> In (mkIntr a b q) loc) /\ (In (a, b) tested -> In (mkIntr a b q) (flat_map (selfPoints pl) tested))).
    { intros a b Ha Hb Nab Oa Ob. destruct (self_vert a Ha) as (A0 & A1 & PA). destruct (self_vert b Hb) as (B0 & B1 & PB).
      destruct (Hex a b Ha Hb Nab) as [O C]. specialize (C q (NSh a b Ha Hb)). assert (Cq : In q (crossPoints (vert pl a 0) (vert pl a 1) (vert pl b 0) (vert pl b 1))) by (apply C; auto).
      rewrite A0, A1, B0, B1 in Cq, O. split.
      - intros E. subst b. apply in_flat_map. exists (a, nextI pl a). split; [apply L2; auto|]. unfold consecutivePoints. apply in_map.
        replace (fuzzyEqual (pos (at_ pl a)) (pos (at_ pl (nextI pl a))) (1 / 100000)) with false.
        2: { symmetry. apply far_fuzzy. rewrite <- A0, <- A1. apply (proj1 Hsp). exact PA. }
        apply in_or_app. left. apply filter_In. split; [exact Cq|]. apply negb_true_iff, far_fuzzy. apply Farv; auto.
      - intros Ht. apply in_flat_map. exists (a, b). split; [auto|]. unfold selfPoints. apply in_map. apply filter_In. split; [apply in_or_app; left; exact Cq|].
        rewrite (NSm q (pos (at_ pl a))), (NSm q (pos (at_ pl b))) by (apply Farv; auto). reflexivity. }
    assert (Done : forall a b, In (mkIntr a b q) (loc ++ flat_map (selfPoints pl) tested) -> In (a, q) (selfCuts (loc ++ flat_map (selfPoints pl) tested)) /\ In (b, q) (selfCuts (loc ++ flat_map (selfPoints pl) tested))).
    { intros a b Hin. split; apply in_flat_map; exists (mkIntr a b q); (split; [exact Hin|]); cbn [sIndex1 sIndex2 ipos]; [now left|right; now left]. }
    destruct (Nat.eq_dec j (nextI pl k)) as [E|N1].
    { destruct (Fin k j Hk Hj (fun E' => Njk (eq_sym E')) Ok Oj) as [F _]. apply (Done k j). apply in_or_app. left. now apply F. }
    destruct (Nat.eq_dec k (nextI pl j)) as [E|N2].
    { destruct (Fin j k Hj Hk Njk Oj Ok) as [F _]. apply (Done j k). apply in_or_app. left. now apply F. }
    assert (FP : farPair pl k j).
    { unfold farPair. rewrite NS. split; [auto|]. split; [auto|]. split.
      - intros [E|[E|[E|E]]]; try congruence. rewrite !self_next in E by auto. apply Inj in E; auto.
      - rewrite K0, K1 in Ok. rewrite J0, J1 in Oj. apply (boxes_of_crossing _ _ _ _ q); auto; try lra.
        + unfold smallBulges in Hsm. rewrite List.Forall_forall in Hsm. apply Hsm. unfold at_. now apply nth_In.
        + unfold smallBulges in Hsm. rewrite List.Forall_forall in Hsm. apply Hsm. unfold at_. now apply nth_In. }
    destruct (T2 k j FP) as [H|H].
    + destruct (Fin k j Hk Hj (fun E' => Njk (eq_sym E')) Ok Oj) as [_ F]. apply (Done k j). apply in_or_app. right. now apply F.
    + destruct (Fin j k Hj Hk Njk Oj Ok) as [_ F]. apply (Done j k). apply in_or_app. right. now apply F.
Qed.
End Self.
