(** * C64: the slices of the raw offset of an open polyline *)
From Coq Require Import ZArith Reals Lra Lia List Bool Arith Permutation Sorted.
From Verif Require Import Base Num MathUtils PlineSegment SpatialIndex Polyline Intersects Combine Offset StdLaws RGeom Spec PropsMath ArcGeom Polar PropsSegment PropsClosest PropsIntr PropsPlineIntr PropsPolyline PropsWinding PropsRegion PropsPlineIndex PropsFindIntr PropsSelfIntr PropsCoincident PropsSlices PropsStitch PropsCombine PropsPieces PropsTrace PropsBoolOps PropsOffsetStitch PropsOffsetSlices PropsParallel PropsParallelTotal PropsOffsetRuns PropsOffsetCuts PropsCover PropsRunPoints PropsOpenTrace.
Import ListNotations.
Open Scope R_scope.

(** what is tested of the first stretch: all but its last but one vertex *)
Definition validatedFirst (ts : tests) (l : list vertex) : Prop :=
  forall l1 a b, l = l1 ++ [a; b] -> (forall v, In v l1 -> valid ts (pos v)) /\ valid ts (pos b) /\ valid ts (segMidpoint a b).

Lemma last_consD {A} (l : list A) : forall x d, last (x :: l) d = last l x.
Proof. induction l as [|y l IH]; intros x d; [reflexivity|]. change (last (y :: l) d = last (y :: l) x). now rewrite !IH. Qed.

Section OpenRuns.
Context {SL : StdLib} {SLaws : StdLaws SL}.
Context (ts : tests) (Hts : okTests ts).
Context (raw : polyline) (m : vlookup) (cs : list (nat * slicePoint)).
Let n := length (vertexes raw).
Hypothesis (Hm : tableOf raw cs m) (Hk : forall k p, In (k, p) cs -> (S k < n)%nat) (Hn : (2 <= n)%nat) (Hst : forall k c, In (k, c) cs -> spStart c = false).
Hypothesis (Hsv : forall i, (i < n)%nat -> fuzzyEqual (pos (at_ raw i)) (pos (nextV raw i)) realPrecision = false)
  (Hown : forall k c, In (k, c) cs -> fuzzyEqual (pos (at_ raw k)) (spPos c) realPrecision = false).

(** before the last cut the walk does not depend on whether it would wrap around *)
Lemma loop_nowrap key l : In (key, l) m -> (key < n)%nat -> forall fuel s i, (i <= key)%nat -> offsetSliceLoop fuel ts raw false m s i = offsetSliceLoop fuel ts raw true m s i.
Proof.
  intros Hin Hkey. induction fuel as [|fuel IH]; intros s i Hi; [reflexivity|]. cbn [offsetSliceLoop].
  destruct (vget raw i) as [v| |]; [cbn [bind]|reflexivity|reflexivity]. destruct (ptValid ts (pos v)) as [[|]| |]; [cbn [bind negb]|reflexivity|reflexivity|reflexivity].
  destruct (lastVertex s) as [lv| |]; [cbn [bind]|reflexivity|reflexivity]. destruct (hitsOrig ts lv v) as [[|]| |]; [reflexivity|cbn [bind]|reflexivity|reflexivity].
  destruct (mfind i m) as [l0|] eqn:Ef; [reflexivity|].
  assert (i <> key). { intros ->. assert (Ek : mfind key m = Some l) by (apply mfind_spec; [apply Hm|exact Hin]). congruence. }
  unfold size. fold n. destruct (Nat.eqb_spec (S i) n); [lia|]. apply IH. lia.
Qed.

Lemma key_of k : (exists l, In (k, l) m) <-> exists c, In (k, c) cs.
Proof.
  destruct Hm as [Nm Sm]. split.
  - intros (l & Hin). apply Sm in Hin. destruct Hin as [E N]. destruct l as [|p l]; [contradiction|]. exists (atP p). apply (sortedCuts_In raw). rewrite <- E. now left.
  - intros (c & Hin). apply (sortedCuts_In raw) in Hin. exists (map spPos (sortedCuts raw cs k)). apply Sm. split; [|intros E; apply map_eq_nil in E; rewrite E in Hin; destruct Hin].
    rewrite map_map. rewrite <- (map_id (sortedCuts raw cs k)) at 2. apply map_ext_in. intros x Hx. apply (sortedCuts_In raw) in Hx. apply Hst in Hx. destruct x as [p b]. cbn [spStart] in Hx. now subst.
Qed.

(** a segment before the last one *)
Lemma open_one sc k l result : In (k, l) m -> (S (S k) < n)%nat -> (exists c, In ((n - 2)%nat, c) cs) ->
  (forall c, In (k, c) cs -> fuzzyEqual (spPos c) (pos (vert raw k 1)) realPrecision = false /\ fuzzyEqual (pos (vert raw k 1)) (spPos c) realPrecision = false) ->
  exists new drop, offsetSliceOne ts raw false sc m result (k, l) = Ok (result ++ map (openOf k) new) /\
  Permutation (new ++ drop) (stretchesO raw cs k) /\ (forall x, In x new -> validated ts x) /\ (forall x, In x drop -> ~ passes ts sc x).
Proof.
  intros Hin Hk2 Hend Hq. destruct (proj2 (key_of (n - 2)) Hend) as (le & Hle).
  assert (ES : stretchesO raw cs k = stretches raw cs k). { unfold stretchesO, stretches. fold n. destruct (Nat.eqb_spec (S (S k)) n); [lia|reflexivity]. }
  rewrite ES. apply (one_runs ts Hts raw m cs Hm); auto.
  - intros x p H. apply Hk in H. fold n. lia. - fold n. lia.
  - intros s. apply (loop_nowrap (n - 2) le); auto; [lia|]. unfold nextWrappingIndex. fold n. destruct (Nat.eqb_spec (S k) n); lia.
Qed.

(** the last segment, whose last cut is the end of the polyline *)
Lemma open_last sc l result : In ((n - 2)%nat, l) m -> far (pos (at_ raw (n - 2))) (pos (at_ raw (n - 1))) -> spPos (last (sortedCuts raw cs (n - 2)) (atP (pos vdflt))) = pos (at_ raw (n - 1)) ->
  exists new drop, offsetSliceOne ts raw false sc m result ((n - 2)%nat, l) = Ok (result ++ map (openOf (n - 2)) new) /\
  Permutation (new ++ drop) (stretchesO raw cs (n - 2)) /\ (forall x, In x new -> validated ts x) /\ (forall x, In x drop -> ~ passes ts sc x).
Proof.
  intros Hin Hfar Hlast. pose proof Hm as [Nm Sm]. pose proof (proj1 (Sm _ l) Hin) as [El Hne]. unfold stretchesO. fold n. destruct (Nat.eqb_spec (S (S (n - 2))) n); [|lia]. rewrite <- El in *.
  destruct l as [|p0 rest]; [contradiction|]. cbn [map]. unfold offsetSliceOne, size. fold n.
  assert (En : nextWrappingIndex (n - 2) n = (n - 1)%nat) by (unfold nextWrappingIndex; destruct (Nat.eqb_spec (S (n - 2)) n); lia). rewrite En. rewrite !vget_at by (fold n; lia). cbn [bind].
  assert (E0 : at_ raw (n - 2) = vert raw (n - 2) 0) by (unfold vert; fold n; rewrite Nat.add_0_r, Nat.mod_small by lia; reflexivity).
  assert (E1 : at_ raw (n - 1) = vert raw (n - 2) 1) by (unfold vert; fold n; rewrite Nat.mod_small by lia; f_equal; lia).
  assert (Elp : last rest p0 = pos (at_ raw (n - 1))).
  { revert Hlast. cbn [map]. replace (last (atP p0 :: map atP rest) (atP (pos vdflt))) with (atP (last rest p0)); [auto|]. rewrite <- (last_map atP).
    symmetry. apply last_consD. }
  rewrite Elp. rewrite split_end by exact Hfar. cbn [splitVertex]. rewrite E0, E1. change (spPos (atP p0)) with p0. rewrite app_nil_r.
  match goal with |- context [if negb ?c then ?a else Ok result] => set (r1 := if negb c then a else Ok result) end.
  set (BT := between (vert raw (n - 2) 1) (splitVertex (splitAtPoint (vert raw (n - 2) 0) (vert raw (n - 2) 1) p0)) (atP p0) (map atP rest)).
  assert (Er : exists new drop, r1 = Ok (result ++ map (openOf (n - 2)) new) /\ Permutation (new ++ drop) BT /\
    (forall l, In l new -> validated ts l) /\ (forall sc l, In l drop -> ~ passes ts sc l)).
  { unfold r1, BT. destruct rest as [|q rest].
    - exists [], []. cbn [length Nat.eqb negb map between app]. rewrite app_nil_r. split; [reflexivity|]. split; [constructor|]. split; [intros x []|intros ? x []].
    - cbn [length Nat.eqb negb]. apply (mid_runs ts Hts). }
  destruct Er as (new & drop & -> & NP & N1 & N2). cbn [bind]. exists new, drop. split; [|split; [exact NP|split; [exact N1|exact (N2 sc)]]].
  rewrite <- E1. set (pe := pos (at_ raw (n - 1))). destruct (proj1 Hts pe) as (b & Eb). rewrite Eb. cbn [bind]. destruct b; cbn [negb]; [|reflexivity].
  cbn [offsetSliceLoop]. rewrite vget_at by (fold n; lia). cbn [bind]. fold pe. rewrite Eb. cbn [bind negb]. unfold lastVertex. cbn [vertexes rev app bind].
  destruct (proj2 Hts (mkVtx pe t0) (at_ raw (n - 1))) as (h & Eh). rewrite Eh. cbn [bind]. destruct h; [reflexivity|].
  assert (Ef : mfind (n - 1) m = None).
  { destruct (mfind (n - 1) m) as [l0|] eqn:E; [|reflexivity]. apply mfind_spec in E; [|auto]. assert (Ex : exists l, In ((n - 1)%nat, l) m) by eauto. apply key_of in Ex. destruct Ex as (c & Hc). apply Hk in Hc. lia. }
  rewrite Ef. unfold size. fold n. destruct (Nat.eqb_spec (S (n - 1)) n); [|lia]. cbn [bind].
  assert (Ea : addOrReplaceIfSamePos (mkPline false [mkVtx pe t0]) (at_ raw (n - 1)) = mkPline false [mkVtx pe (bulge (at_ raw (n - 1)))]).
  { unfold addOrReplaceIfSamePos. cbn [vertexes rev app pos isClosed]. fold pe. replace (fuzzyEqual pe pe realPrecision) with true; [reflexivity|].
    symmetry. rewrite prec_R. apply fuzzyEqual_R. rewrite !Rminus_diag_eq, Rabs_R0 by reflexivity. lra. }
  rewrite Ea. cbn [vertexes length Nat.ltb Nat.leb andb bind]. reflexivity.
Qed.

(** the first stretch *)
Lemma open_first d q t : (S d < n)%nat -> (forall e, (e < d)%nat -> sortedCuts raw cs e = []) -> sortedCuts raw cs d = q :: t ->
  let us := updatedStart (splitAtPoint (vert raw 0 d) (vert raw 0 (S d)) (spPos q)) in let l := map (vert raw 0) (seq 0 d) ++ [us; mkVtx (spPos q) t0] in
  exists keep : bool, firstSliceLoop (S n) ts raw m emptyPline 0 = Ok (if keep then [openOf 0 l] else []) /\ (keep = true -> validatedFirst ts l) /\ (keep = false -> forall sc, ~ passes ts sc l).
Proof.
  intros Hd Hno Hyes us l. destruct Hm as [Nm Sm].
  assert (V : forall i, (i < n)%nat -> vert raw 0 i = at_ raw i) by (intros i Hi; unfold vert; fold n; cbn [plus]; now rewrite Nat.mod_small).
  assert (Iq : In (d, q) cs) by (apply (sortedCuts_In raw); rewrite Hyes; now left). pose proof (Hown _ _ Iq) as Sep2.
  pose proof (Hsv d ltac:(lia)) as Sep1. unfold nextV in Sep1. fold n in Sep1. assert (En : nextWrappingIndex d n = S d) by (unfold nextWrappingIndex; destruct (Nat.eqb_spec (S d) n); lia). rewrite En in Sep1.
  assert (Eus : pos us = pos (vert raw 0 d)).
  { unfold us, splitAtPoint. destruct (bulgeIsZero _); [reflexivity|]. rewrite !V by lia. rewrite Sep1, Sep2. cbn [orb]. destruct (fuzzyEqual (pos (at_ raw (S d))) _ _); reflexivity. }
  assert (G : forall j i s, (i + j = d)%nat -> isClosed s = false -> vertexes s = map (vert raw 0) (seq 0 i) ->
    (exists keep : bool, firstSliceLoop (S (n - i)) ts raw m s i = Ok (if keep then [openOf 0 l] else []) /\
      (keep = true -> (forall x, (i <= x < d)%nat -> valid ts (pos (vert raw 0 x))) /\ valid ts (spPos q) /\ valid ts (segMidpoint us (mkVtx (spPos q) t0))) /\
      (keep = false -> forall sc, ~ passes ts sc l))).
  { induction j as [|j IH]; intros i s Hij Hc Ev; cbn [firstSliceLoop].
    - assert (i = d) by lia. subst i.
      assert (Ef : exists lq, mfind d m = Some (spPos q :: lq)).
      { assert (Ex : exists c, In (d, c) cs) by eauto. apply key_of in Ex. destruct Ex as (lq & Hin). pose proof (proj1 (Sm _ _) Hin) as [El _]. rewrite Hyes in El. destruct lq as [|x lq]; [discriminate|]. injection El as <- _. exists lq. apply mfind_spec; auto. }
      destruct Ef as (lq & Ef). rewrite Ef. cbn [rget nth_error bind].
      destruct (proj1 Hts (spPos q)) as (b2 & E2). rewrite E2. cbn [bind]. destruct b2; cbn [negb].
      2: { exists false. split; [reflexivity|]. split; [discriminate|]. intros _ sc ((W & _) & _). specialize (W (mkVtx (spPos q) t0) ltac:(unfold l; apply in_or_app; right; right; now left)). unfold valid in W. cbn [pos] in W. congruence. }
      rewrite Nat.add_1_r, !vget_at by (fold n; lia). cbn [bind]. rewrite <- (V d), <- (V (S d)) by lia. fold us.
      destruct (proj1 Hts (segMidpoint us (mkVtx (spPos q) t0))) as (b3 & E3). rewrite E3. cbn [bind]. destruct b3; cbn [negb].
      2: { exists false. split; [reflexivity|]. split; [discriminate|]. intros _ sc ((_ & W) & _). unfold valid, l in W. rewrite lastMid_snoc in W. congruence. }
      destruct (proj2 Hts us (mkVtx (spPos q) t0)) as (h & Eh). rewrite Eh. cbn [bind]. destruct h.
      { exists false. split; [reflexivity|]. split; [discriminate|]. intros _ sc (_ & W & _). specialize (W (map (vert raw 0) (seq 0 d)) us (mkVtx (spPos q) t0) [] (mkVtx (spPos q) t0) eq_refl eq_refl). congruence. }
      exists true. split; [|split; [intros _; split; [intros; lia|auto]|discriminate]].
      assert (A1 : addOrReplaceIfSamePos s us = mkPline false (map (vert raw 0) (seq 0 d) ++ [us])).
      { destruct d as [|d'].
        - unfold addOrReplaceIfSamePos, addVertex. rewrite Ev, Hc. reflexivity.
        - rewrite seq_S, map_app in Ev. cbn [plus map] in Ev. rewrite (addOrReplace_new s _ _ us Ev), Hc.
          + rewrite seq_S, map_app. cbn [plus map]. now rewrite <- app_assoc.
          + rewrite Eus, !V by lia. pose proof (Hsv d' ltac:(lia)) as S1. unfold nextV, nextWrappingIndex in S1. fold n in S1. destruct (Nat.eqb_spec (S d') n); [lia|]. exact S1. }
      rewrite A1. rewrite (addOrReplace_new _ (map (vert raw 0) (seq 0 d)) us); [reflexivity|reflexivity|]. rewrite Eus, V by lia. exact Sep2.
    - assert (Ef : mfind i m = None).
      { destruct (mfind i m) as [l0|] eqn:E; [|reflexivity]. apply mfind_spec in E; [|auto]. apply Sm in E. rewrite (Hno i) in E by lia. destruct E as [E N]. apply map_eq_nil in E. contradiction. }
      rewrite Ef. rewrite vget_at by (fold n; lia). cbn [bind]. rewrite <- V by lia.
      assert (Hin : In (vert raw 0 i) l) by (unfold l; apply in_or_app; left; apply in_map, in_seq; lia).
      destruct (proj1 Hts (pos (vert raw 0 i))) as (b1 & E1). rewrite E1. cbn [bind]. destruct b1; cbn [negb].
      2: { exists false. split; [reflexivity|]. split; [discriminate|]. intros _ sc ((W & _) & _). specialize (W _ Hin). unfold valid in W. congruence. }
      match goal with |- context [bind ?x _] => set (HH := x) end.
      assert (EH : exists h, HH = Ok h /\ (h = true -> forall sc, ~ passes ts sc l)).
      { unfold HH. destruct (Nat.eqb_spec i 0) as [->|Ni]; cbn [negb]; [exists false; split; [reflexivity|discriminate]|].
        destruct i as [|i]; [lia|]. rewrite seq_S, map_app in Ev. cbn [plus map] in Ev. unfold lastVertex. rewrite Ev, rev_app_distr. cbn [rev app bind].
        destruct (proj2 Hts (vert raw 0 i) (vert raw 0 (S i))) as (h & Eh). exists h. split; [exact Eh|]. intros -> sc (_ & W & _).
        assert (Es : seq 0 d = seq 0 i ++ i :: S i :: seq (S (S i)) (d - 2 - i)).
        { replace d with (i + S (S (d - 2 - i)))%nat at 1 by lia. rewrite seq_app. f_equal. }
        specialize (W (map (vert raw 0) (seq 0 i)) (vert raw 0 i) (vert raw 0 (S i)) (map (vert raw 0) (seq (S (S i)) (d - 2 - i)) ++ [us; mkVtx (spPos q) t0]) (vert raw 0 (S i))).
        rewrite W in Eh; [discriminate| |reflexivity]. unfold l. rewrite Es, map_app. cbn [map app]. now rewrite <- !app_assoc. }
      destruct EH as (h & EH & Hh). rewrite EH. cbn [bind]. destruct h.
      { exists false. split; [reflexivity|]. split; [discriminate|]. intros _. apply Hh. reflexivity. }
      replace (n - i)%nat with (S (n - S i)) by lia.
      assert (A1 : addOrReplaceIfSamePos s (vert raw 0 i) = mkPline false (map (vert raw 0) (seq 0 (S i)))).
      { rewrite seq_S, map_app. cbn [plus map]. destruct i as [|i'].
        - unfold addOrReplaceIfSamePos, addVertex. rewrite Ev, Hc. reflexivity.
        - rewrite seq_S, map_app in Ev. cbn [plus map] in Ev. rewrite (addOrReplace_new s _ _ _ Ev), Hc.
          + rewrite seq_S, map_app. cbn [plus map]. now rewrite <- app_assoc.
          + rewrite !V by lia. pose proof (Hsv i' ltac:(lia)) as S1. unfold nextV, nextWrappingIndex in S1. fold n in S1. destruct (Nat.eqb_spec (S i') n); [lia|]. exact S1. }
      rewrite A1. destruct (IH (S i) (mkPline false (map (vert raw 0) (seq 0 (S i)))) ltac:(lia) eq_refl eq_refl) as (keep & E & K1 & K2).
      exists keep. split; [exact E|]. split; [|exact K2]. intros Kt. destruct (K1 Kt) as (W1 & W2 & W3). split; [|auto]. intros x Hx. destruct (Nat.eq_dec x i) as [->|]; [exact E1|apply W1; lia]. }
  destruct (G d 0%nat emptyPline ltac:(lia) eq_refl eq_refl) as (keep & E & K1 & K2). rewrite Nat.sub_0_r in E. exists keep. split; [exact E|]. split; [|exact K2].
  intros Kt. destruct (K1 Kt) as (W1 & W2 & W3). intros l1 a b El. unfold l in El. apply (f_equal (@rev vertex)) in El. rewrite !rev_app_distr in El. cbn [rev app] in El. injection El as <- <- El.
  apply (f_equal (@rev vertex)) in El. rewrite !rev_involutive in El. subst l1. split; [|split; [exact W2|exact W3]].
  intros v Hv. apply in_map_iff in Hv. destruct Hv as (x & <- & Hx). apply in_seq in Hx. apply W1. lia.
Qed.
End OpenRuns.
