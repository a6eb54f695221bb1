(** * C57: the results of an offset are stretches of the raw offset between its crossing points *)
From Coq Require Import ZArith Reals Lra Lia List Bool Arith Permutation Sorted.
From Verif Require Import Base Num MathUtils PlineSegment SpatialIndex Polyline Intersects Combine Offset StdLaws RGeom Spec PropsMath ArcGeom Polar PropsSegment PropsClosest PropsIntr PropsPlineIntr PropsPolyline PropsWinding PropsRegion PropsPlineIndex PropsFindIntr PropsSelfIntr PropsCoincident PropsSlices PropsStitch PropsCombine PropsPieces PropsTrace PropsBoolOps PropsOffsetStitch PropsOffsetSlices PropsParallel PropsParallelTotal.
Import ListNotations.
Open Scope R_scope.

(** ** Which stretches are kept *)
(** the point passes the distance test *)
Definition valid (ts : tests) (p : vec) : Prop := ptValid ts p = Ok true.

(** the midpoint of the last segment of the list *)
Definition lastMid (l : list vertex) : vec := match rev l with b :: a :: _ => segMidpoint a b | _ => pos vdflt end.

(** every point of the stretch that is tested passes the test *)
Definition validated (ts : tests) (l : list vertex) : Prop := (forall v, In v l -> valid ts (pos v)) /\ valid ts (lastMid l).

(** nothing speaks against the stretch *)
Definition passes (ts : tests) (shortCheck : bool) (l : list vertex) : Prop :=
  validated ts l /\ (forall l1 a b l2 b', l = l1 ++ a :: b :: l2 -> pos b' = pos b -> hitsOrig ts a b' = Ok false) /\
  (shortCheck = true -> fuzzyEqual (pos (hd vdflt l)) (pos (last l vdflt)) (1 / 100000000) = true -> 1 / 100 < getPathLength (mkPline false l)).

Definition openOf (k : nat) (l : list vertex) : openSlice := mkOSl (Some k) (mkPline false l).

(** the table of a list of cuts *)
Definition atP (p : vec) : slicePoint := mkSP p false.
Definition tableOf {SL : StdLib} (raw : polyline) (cs : list (nat * slicePoint)) (m : vlookup) : Prop :=
  NoDup (map fst m) /\ forall k l, In (k, l) m <-> map atP l = sortedCuts raw cs k /\ l <> [].

Lemma lastMid_snoc l a b : lastMid (l ++ [a; b]) = segMidpoint a b.
Proof. unfold lastMid. rewrite rev_app_distr. reflexivity. Qed.

Section Runs.
Context {SL : StdLib} {SLaws : StdLaws SL}.
Context (ts : tests) (Hts : okTests ts).

Lemma pt_dec p : valid ts p \/ ptValid ts p = Ok false.
Proof. destruct (proj1 Hts p) as ([|] & E); [left; exact E|right; exact E]. Qed.

Lemma mid_runs k segEnd : forall rest w p result, exists new drop,
  midOffsetSlices ts k segEnd w rest result = Ok (result ++ map (openOf k) new) /\
  Permutation (new ++ drop) (between segEnd w (atP p) (map atP rest)) /\
  (forall l, In l new -> validated ts l) /\ (forall sc l, In l drop -> ~ passes ts sc l).
Proof.
  induction rest as [|q rest IH]; intros w p result.
  - exists [], []. cbn [midOffsetSlices map between app]. rewrite app_nil_r. split; [reflexivity|]. split; [constructor|]. split; [intros l []|intros sc l []].
  - cbn [midOffsetSlices map between]. change (spPos (atP q)) with q. change (spStart (atP p)) with false. cbn [orb]. set (s := splitAtPoint w segEnd q). set (a := updatedStart s). set (b := splitVertex s).
    match goal with |- context [bind ?m _] => set (K := m) end.
    assert (HK : exists keep, K = Ok keep /\ (keep = true -> fuzzyEqual (pos a) (pos b) realPrecision = false /\ validated ts [a; b]) /\
      (forall sc, fuzzyEqual (pos a) (pos b) realPrecision = false -> passes ts sc [a; b] -> keep = true)).
    { unfold K. destruct (fuzzyEqual (pos a) (pos b) realPrecision) eqn:Ef; [exists false; split; [reflexivity|split; discriminate]|].
      destruct (proj1 Hts (pos a)) as (b1 & E1). rewrite E1. cbn [bind]. destruct b1; cbn [negb].
      2: { exists false. split; [reflexivity|]. split; [discriminate|]. intros sc _ [[V _] _]. specialize (V a (or_introl eq_refl)). unfold valid in V. congruence. }
      destruct (proj1 Hts (pos b)) as (b2 & E2). rewrite E2. cbn [bind]. destruct b2; cbn [negb].
      2: { exists false. split; [reflexivity|]. split; [discriminate|]. intros sc _ [[V _] _]. specialize (V b (or_intror (or_introl eq_refl))). unfold valid in V. congruence. }
      destruct (proj1 Hts (segMidpoint a b)) as (b3 & E3). rewrite E3. cbn [bind]. destruct b3; cbn [negb].
      2: { exists false. split; [reflexivity|]. split; [discriminate|]. intros sc _ [[_ V] _]. unfold valid, lastMid in V. cbn in V. congruence. }
      destruct (proj2 Hts a b) as (b4 & E4). rewrite E4. cbn [bind]. exists (negb b4). split; [reflexivity|]. split.
      - intros _. split; [auto|]. split; [|exact E3]. intros v [<-|[<-|[]]]; auto.
      - intros sc _ (_ & H & _). specialize (H [] a b [] b eq_refl eq_refl). rewrite E4 in H. injection H as ->. reflexivity. }
    destruct HK as (keep & -> & K1 & K2). cbn [bind]. destruct (IH b q (if keep then result ++ [openOf k [a; b]] else result)) as (new & drop & E & HP & H1 & H2).
    destruct keep.
    + destruct (K1 eq_refl) as [Ef V]. exists ([a; b] :: new), drop. split; [|split; [|split]].
      * etransitivity; [exact E|]. f_equal. cbn [map]. now rewrite <- app_assoc.
      * rewrite Ef. cbn [app]. now constructor.
      * intros l [<-|Hin]; auto.
      * exact H2.
    + exists new, ((if fuzzyEqual (pos a) (pos b) realPrecision then [] else [[a; b]]) ++ drop). split; [exact E|]. split; [|split; [exact H1|]].
      * etransitivity; [apply Permutation_app_swap_app|]. apply Permutation_app_head. exact HP.
      * intros sc l Hin. apply in_app_or in Hin. destruct Hin as [Hin|Hin]; [|now apply H2].
        destruct (fuzzyEqual (pos a) (pos b) realPrecision) eqn:Ef; [destruct Hin|]. destruct Hin as [<-|[]]. intros Hp. specialize (K2 sc eq_refl Hp). discriminate.
Qed.

Context (raw : polyline) (m : vlookup) (cs : list (nat * slicePoint)).
Let n := length (vertexes raw).
Hypothesis (Hm : tableOf raw cs m) (Hk : forall k p, In (k, p) cs -> (k < n)%nat) (Hn : (0 < n)%nat) (Hst : forall k c, In (k, c) cs -> spStart c = false).
(** consecutive vertices are apart, and so is every cut from the start of its segment *)
Hypothesis (Hsv : forall i, (i < n)%nat -> fuzzyEqual (pos (at_ raw i)) (pos (nextV raw i)) realPrecision = false)
  (Hown : forall k c, In (k, c) cs -> fuzzyEqual (pos (at_ raw k)) (spPos c) realPrecision = false).

Lemma loop_runs k d q t : (forall e, (1 <= e < d)%nat -> sortedCuts raw cs ((k + e) mod n) = []) -> sortedCuts raw cs ((k + d) mod n) = q :: t ->
  let us := updatedStart (splitAtPoint (vert raw k d) (vert raw k (S d)) (spPos q)) in let e := mkVtx (spPos q) t0 in
  pos us = pos (vert raw k d) /\
  forall j i fuel s l w, (i + j = d)%nat -> (1 <= i)%nat -> (j < fuel)%nat -> isClosed s = false -> vertexes s = l ++ [w] ->
  fuzzyEqual (pos w) (pos (vert raw k i)) realPrecision = false ->
  exists b s', offsetSliceLoop fuel ts raw true m s ((k + i) mod n) = Ok (b, s') /\
    (b = true -> s' = mkPline false (vertexes s ++ map (vert raw k) (seq i j) ++ [us; e]) /\
       (forall x, (i <= x <= d)%nat -> valid ts (pos (vert raw k x))) /\ valid ts (spPos q) /\ valid ts (segMidpoint us e)) /\
    ((forall x, (i <= x <= d)%nat -> valid ts (pos (vert raw k x))) -> valid ts (spPos q) -> valid ts (segMidpoint us e) ->
       hitsOrig ts w (vert raw k i) = Ok false -> (forall x, (i <= x < d)%nat -> hitsOrig ts (vert raw k x) (vert raw k (S x)) = Ok false) -> b = true).
Proof.
  intros Hno Hyes us e. destruct Hm as [Nm Sm]. pose proof Hsv as Sv.
  pose proof (Nat.mod_upper_bound (k + d) n ltac:(lia)) as Hbd.
  assert (Iq : In ((k + d) mod n, q) cs) by (apply (sortedCuts_In raw); rewrite Hyes; now left).
  assert (Sep2 := Hown _ _ Iq). pose proof (Sv _ Hbd) as Sep1. unfold nextV in Sep1. fold n in Sep1. rewrite next_mod in Sep1 by auto. rewrite plus_n_Sm in Sep1.
  assert (Eus : pos us = pos (vert raw k d)).
  { unfold us, splitAtPoint. destruct (bulgeIsZero _); [reflexivity|]. unfold vert. fold n. rewrite Sep1, Sep2. cbn [orb]. destruct (fuzzyEqual (pos (at_ raw ((k + S d) mod n))) _ _); reflexivity. }
  split; [exact Eus|].
  induction j as [|j IH]; intros i fuel s l w Hij Hi1 Hf Hc El Hw; (destruct fuel as [|fuel]; [lia|]); cbn [offsetSliceLoop].
  - assert (i = d) by lia. subst i. rewrite vget_at by exact Hbd. cbn [bind]. fold (vert raw k d). change (at_ raw ((k + d) mod n)) with (vert raw k d).
    destruct (proj1 Hts (pos (vert raw k d))) as (b1 & E1). rewrite E1. cbn [bind]. destruct b1; cbn [negb].
    2: { do 2 eexists. split; [reflexivity|]. split; [discriminate|]. intros V _ _ _ _. specialize (V d ltac:(lia)). unfold valid in V. congruence. }
    assert (Elv : lastVertex s = Ok w) by (unfold lastVertex; rewrite El, rev_app_distr; reflexivity). rewrite Elv. cbn [bind].
    destruct (proj2 Hts w (vert raw k d)) as (h & Eh). rewrite Eh. cbn [bind]. destruct h.
    { do 2 eexists. split; [reflexivity|]. split; [discriminate|]. intros _ _ _ Hh _. congruence. }
    rewrite (addOrReplace_new s l w (vert raw k d) El Hw).
    assert (Ef : exists lq, mfind ((k + d) mod n) m = Some (spPos q :: lq)).
    { assert (exists lq, In ((k + d) mod n, lq) m /\ map atP lq = q :: t) as (lq & Hin & Eq).
      { exists (map spPos (q :: t)). split.
        - apply Sm. rewrite Hyes. split; [|discriminate]. rewrite map_map. rewrite <- (map_id (q :: t)) at 2. apply map_ext_in. intros c Hcin. unfold atP.
          assert (In ((k + d) mod n, c) cs) as Hc' by (apply (sortedCuts_In raw); now rewrite Hyes). apply Hst in Hc'. destruct c as [x y]. cbn [spPos spStart] in *. now subst.
        - rewrite map_map. rewrite <- (map_id (q :: t)) at 2. apply map_ext_in. intros c Hcin. unfold atP.
          assert (In ((k + d) mod n, c) cs) as Hc' by (apply (sortedCuts_In raw); now rewrite Hyes). apply Hst in Hc'. destruct c as [x y]. cbn [spPos spStart] in *. now subst. }
      destruct lq as [|x lq]; [discriminate|]. injection Eq as <- _. exists lq. apply mfind_spec; auto. }
    destruct Ef as (lq & Ef). rewrite Ef. cbn [rget nth_error bind].
    destruct (proj1 Hts (spPos q)) as (b2 & E2). rewrite E2. cbn [bind]. destruct b2; cbn [negb].
    2: { do 2 eexists. split; [reflexivity|]. split; [discriminate|]. intros _ V _ _ _. unfold valid in V. congruence. }
    unfold size. fold n. rewrite next_mod by auto. rewrite vget_at by (apply Nat.mod_upper_bound; lia). cbn [bind]. rewrite plus_n_Sm. change (at_ raw ((k + S d) mod n)) with (vert raw k (S d)).
    unfold lastVertex. cbn [vertexes]. replace (l ++ [w; vert raw k d]) with ((l ++ [w]) ++ [vert raw k d]) by now rewrite <- app_assoc.
    rewrite rev_app_distr. cbn [rev app bind]. fold us. fold e.
    destruct (proj1 Hts (segMidpoint us e)) as (b3 & E3). rewrite E3. cbn [bind]. destruct b3; cbn [negb].
    2: { do 2 eexists. split; [reflexivity|]. split; [discriminate|]. intros _ _ V _ _. unfold valid in V. congruence. }
    unfold setLastVertex. cbn [vertexes isClosed]. rewrite rev_app_distr. cbn [rev app]. rewrite rev_involutive. cbn [bind].
    rewrite (addOrReplace_new _ (l ++ [w]) us e); [|reflexivity|rewrite Eus; exact Sep2].
    do 2 eexists. split; [reflexivity|]. split; [|auto]. intros _. cbn [isClosed seq map app]. rewrite Hc, El. split; [reflexivity|]. split; [|auto]. intros x Hx. replace x with d by lia. exact E1.
  - pose proof (Nat.mod_upper_bound (k + i) n ltac:(lia)) as Hb. rewrite vget_at by exact Hb. cbn [bind]. change (at_ raw ((k + i) mod n)) with (vert raw k i).
    destruct (proj1 Hts (pos (vert raw k i))) as (b1 & E1). rewrite E1. cbn [bind]. destruct b1; cbn [negb].
    2: { do 2 eexists. split; [reflexivity|]. split; [discriminate|]. intros V _ _ _ _. specialize (V i ltac:(lia)). unfold valid in V. congruence. }
    assert (Elv : lastVertex s = Ok w) by (unfold lastVertex; rewrite El, rev_app_distr; reflexivity). rewrite Elv. cbn [bind].
    destruct (proj2 Hts w (vert raw k i)) as (h & Eh). rewrite Eh. cbn [bind]. destruct h.
    { do 2 eexists. split; [reflexivity|]. split; [discriminate|]. intros _ _ _ Hh _. congruence. }
    rewrite (addOrReplace_new s l w (vert raw k i) El Hw).
    assert (Ef : mfind ((k + i) mod n) m = None).
    { destruct (mfind ((k + i) mod n) m) as [l0|] eqn:E; [|reflexivity]. apply mfind_spec in E; [|auto]. apply Sm in E. rewrite (Hno i) in E by lia. destruct E as [E N]. apply map_eq_nil in E. contradiction. }
    rewrite Ef. unfold size. fold n.
    assert (Enext : forall (A : Type) (f : nat -> A), (if (S ((k + i) mod n) =? n)%nat then f 0%nat else f (S ((k + i) mod n))) = f ((k + S i) mod n)%nat).
    { intros A f. rewrite <- plus_n_Sm. rewrite <- next_mod by auto. unfold nextWrappingIndex. destruct (Nat.eqb_spec (S ((k + i) mod n)) n); reflexivity. }
    rewrite (Enext _ (fun ix => offsetSliceLoop fuel ts raw true m (mkPline (isClosed s) (l ++ [w; vert raw k i])) ix)).
    destruct (IH (S i) fuel (mkPline (isClosed s) (l ++ [w; vert raw k i])) (l ++ [w]) (vert raw k i)) as (b & s' & E & G1 & G2); [lia|lia|lia|exact Hc|cbn [vertexes]; now rewrite <- app_assoc| |].
    { pose proof (Sv _ Hb) as Sep. unfold nextV in Sep. fold n in Sep. rewrite next_mod in Sep by auto. rewrite plus_n_Sm in Sep. exact Sep. }
    exists b, s'. split; [exact E|]. split.
    + intros Hbt. destruct (G1 Hbt) as (-> & V & Vq & Vm). split; [|split; [|auto]].
      * cbn [vertexes seq map app]. rewrite El. rewrite <- !app_assoc. reflexivity.
      * intros x Hx. destruct (Nat.eq_dec x i) as [->|]; [exact E1|apply V; lia].
    + intros V Vq Vm Hh Hhs. apply G2; auto. * intros x Hx. apply V. lia. * apply Hhs. lia. * intros x Hx. apply Hhs. lia.
Qed.

(** the slices that begin on segment k are stretches; those nothing speaks against are all there *)
Lemma one_runs sc wr k l result : In (k, l) m ->
  (forall c, In (k, c) cs -> fuzzyEqual (spPos c) (pos (vert raw k 1)) realPrecision = false /\ fuzzyEqual (pos (vert raw k 1)) (spPos c) realPrecision = false) ->
  (forall s, offsetSliceLoop (S n) ts raw wr m s (nextWrappingIndex k n) = offsetSliceLoop (S n) ts raw true m s (nextWrappingIndex k n)) -> exists new drop,
  offsetSliceOne ts raw wr sc m result (k, l) = Ok (result ++ map (openOf k) new) /\
  Permutation (new ++ drop) (stretches raw cs k) /\
  (forall x, In x new -> validated ts x) /\ (forall x, In x drop -> ~ passes ts sc x).
Proof.
  intros Hin Hq Hwr. pose proof Hm as [Nm Sm]. pose proof (proj1 (Sm k l) Hin) as [El Hne]. unfold stretches. rewrite <- El.
  destruct l as [|p0 rest]; [contradiction|]. cbn [map]. unfold offsetSliceOne, size. fold n.
  assert (Hl : forall c, In c (p0 :: rest) -> In (k, atP c) cs) by (intros c Hc; apply (sortedCuts_In raw); rewrite <- El; now apply in_map).
  assert (Ik : (k < n)%nat) by (apply (Hk k (atP p0)), Hl; now left).
  pose proof (next_lt _ _ Ik) as In1. rewrite !vget_at by auto. cbn [bind].
  assert (E0 : at_ raw k = vert raw k 0) by (unfold vert; fold n; now rewrite Nat.add_0_r, Nat.mod_small).
  assert (En : nextWrappingIndex k n = ((k + 1) mod n)%nat) by (rewrite <- (Nat.mod_small k n) at 1 by auto; rewrite next_mod by auto; now rewrite Nat.add_1_r).
  assert (E1 : at_ raw (nextWrappingIndex k n) = vert raw k 1) by (rewrite En; reflexivity). rewrite E0, E1. change (spPos (atP p0)) with p0.
  match goal with |- context [if negb ?c then ?a else Ok result] => set (r1 := if negb c then a else Ok result) end.
  set (BT := between (vert raw k 1) (splitVertex (splitAtPoint (vert raw k 0) (vert raw k 1) p0)) (atP p0) (map atP rest)).
  assert (Er : exists new drop, r1 = Ok (result ++ map (openOf k) new) /\ Permutation (new ++ drop) BT /\
    (forall l, In l new -> validated ts l) /\ (forall sc l, In l drop -> ~ passes ts sc l)).
  { unfold r1, BT. destruct rest as [|q rest].
    - exists [], []. cbn [length Nat.eqb negb map between app]. rewrite app_nil_r. split; [reflexivity|]. split; [constructor|]. split; [intros x []|intros ? x []].
    - cbn [length Nat.eqb negb]. apply mid_runs. }
  destruct Er as (new & drop & -> & NP & N1 & N2). cbn [bind]. set (lp := last rest p0).
  assert (Elp : last (map atP rest) (atP p0) = atP lp) by apply last_map. rewrite Elp.
  assert (Hlast : In (k, atP lp) cs) by (apply Hl, last_In).
  unfold onward. fold n. change (spStart (atP lp)) with false. cbn iota.
  set (P := fun d => match sortedCuts raw cs ((k + d) mod n) with [] => false | _ :: _ => true end).
  assert (exists d, find P (seq 1 n) = Some d /\ (1 <= d <= n)%nat /\ forall e, (1 <= e < d)%nat -> P e = false) as (d & Ed & Hd & Hfirst).
  { assert (Hex : exists e, In e (seq 1 n) /\ P e = true).
    { exists n. split; [apply in_seq; lia|]. unfold P. rewrite <- (Nat.mul_1_l n) at 1. rewrite Nat.mod_add, Nat.mod_small, <- El by lia. reflexivity. }
    assert (G : forall len st, (exists e, In e (seq st len) /\ P e = true) -> exists d, find P (seq st len) = Some d /\ (st <= d < st + len)%nat /\ forall e, (st <= e < d)%nat -> P e = false).
    { induction len as [|len IH]; intros st (e & He & HP); [destruct He|]. cbn [seq find]. destruct (P st) eqn:Eps.
      - exists st. split; [auto|]. split; [lia|]. intros; lia.
      - destruct (IH (S st)) as (d & D1 & D2 & D3).
        { exists e. split; [|auto]. cbn [seq] in He. destruct He as [<-|He]; [congruence|auto]. }
        exists d. split; [auto|]. split; [lia|]. intros e' He'. destruct (Nat.eq_dec e' st) as [->|]; [auto|]. apply D3. lia. }
    destruct (G n 1%nat Hex) as (d & D1 & D2 & D3). exists d. split; [auto|]. split; [lia|auto]. }
  rewrite Ed. assert (HPd : P d = true) by (apply find_some in Ed; tauto). unfold P in HPd.
  destruct (sortedCuts raw cs ((k + d) mod n)) as [|q t] eqn:Eq; [discriminate|].
  change (spPos (atP lp)) with lp. set (w := splitVertex (splitAtPoint (vert raw k 0) (vert raw k 1) lp)).
  pose proof (Nat.mod_upper_bound (k + 1) n ltac:(lia)) as Hb1.
  destruct (Hq _ Hlast) as [Q1 Q2]. change (spPos (atP lp)) with lp in Q1, Q2.
  assert (Hw : pos w = lp). { unfold w, splitAtPoint. destruct (bulgeIsZero _); [reflexivity|]. destruct (_ || _); [reflexivity|]. rewrite Q2. reflexivity. }
  assert (Hwf : fuzzyEqual (pos w) (pos (vert raw k 1)) realPrecision = false) by (rewrite Hw; exact Q1).
  rewrite Hwr, En.
  assert (Hno : forall e, (1 <= e < d)%nat -> sortedCuts raw cs ((k + e) mod n) = []).
  { intros e He. specialize (Hfirst e He). unfold P in Hfirst. destruct (sortedCuts raw cs ((k + e) mod n)); [auto|discriminate]. }
  destruct (loop_runs k d q t Hno Eq) as (Eus & LP). cbv zeta in Eus, LP.
  set (us := updatedStart (splitAtPoint (vert raw k d) (vert raw k (S d)) (spPos q))) in *. set (e := mkVtx (spPos q) t0) in *.
  destruct (LP (d - 1)%nat 1%nat (S n) (mkPline false [w]) [] w ltac:(lia) (le_n 1) ltac:(lia) eq_refl eq_refl Hwf) as (b & s' & EE & G1 & G2). clear LP.
  cbn [vertexes] in G1. set (L0 := [w] ++ map (vert raw k) (seq 1 (d - 1)) ++ [us; e]) in *.
  assert (EL : L0 = ([w] ++ map (vert raw k) (seq 1 (d - 1))) ++ [us; e]) by (unfold L0; now rewrite <- app_assoc).
  assert (LL : (1 < length L0)%nat) by (rewrite EL, app_length; cbn [length]; lia).
  assert (LM : lastMid L0 = segMidpoint us e) by (rewrite EL; apply lastMid_snoc).
  assert (LV : valid ts lp -> (forall x, (1 <= x <= d)%nat -> valid ts (pos (vert raw k x))) -> valid ts (spPos q) -> forall v, In v L0 -> valid ts (pos v)).
  { intros V1 V2 V3 v Hv. unfold L0 in Hv. cbn [app] in Hv. destruct Hv as [<-|Hv]; [rewrite Hw; exact V1|]. apply in_app_or in Hv. destruct Hv as [Hv|[<-|[<-|[]]]].
    - apply in_map_iff in Hv. destruct Hv as (x & <- & Hx). apply in_seq in Hx. apply V2. lia.
    - rewrite Eus. apply V2. lia.
    - exact V3. }
  assert (HP : passes ts sc L0 -> valid ts lp /\ b = true).
  { intros ((V & VM) & HH & _). split; [rewrite <- Hw; apply V; now left|]. apply G2.
    - intros x Hx. destruct (Nat.eq_dec x d) as [->|Nx]; [rewrite <- Eus; apply V; rewrite EL; apply in_or_app; right; now left|].
      apply V. unfold L0. cbn [app]. right. apply in_or_app. left. apply in_map, in_seq. lia.
    - apply (V e). rewrite EL. apply in_or_app. right. right. now left.
    - rewrite <- LM. exact VM.
    - destruct (Nat.eq_dec d 1) as [->|Nd].
      + apply (HH [] w us [e]); [reflexivity|now rewrite Eus].
      + apply (HH [] w (vert raw k 1) (map (vert raw k) (seq 2 (d - 2)) ++ [us; e])); [|reflexivity]. unfold L0. replace (d - 1)%nat with (S (d - 2)) by lia. reflexivity.
    - intros x Hx. destruct (Nat.eq_dec (S x) d) as [Ex|Nx].
      + assert (Es : seq 1 (d - 1) = seq 1 (x - 1) ++ [x]). { replace (d - 1)%nat with (S (x - 1)) by lia. rewrite seq_S. do 2 f_equal. lia. }
        apply (HH (w :: map (vert raw k) (seq 1 (x - 1))) (vert raw k x) us [e]); [|rewrite Eus; now rewrite Ex]. unfold L0. rewrite Es, map_app. cbn [map app]. now rewrite <- !app_assoc.
      + assert (Es : seq 1 (d - 1) = seq 1 (x - 1) ++ x :: S x :: seq (S (S x)) (d - 2 - x)).
        { replace (d - 1)%nat with ((x - 1) + S (S (d - 2 - x)))%nat by lia. rewrite seq_app. f_equal. replace (1 + (x - 1))%nat with x by lia. reflexivity. }
        apply (HH (w :: map (vert raw k) (seq 1 (x - 1))) (vert raw k x) (vert raw k (S x)) (map (vert raw k) (seq (S (S x)) (d - 2 - x)) ++ [us; e])); [|reflexivity]. unfold L0. rewrite Es, map_app. cbn [map app]. now rewrite <- !app_assoc. }
  assert (Fin : forall keep : bool, (keep = true -> validated ts L0) -> (keep = false -> ~ passes ts sc L0) -> exists new' drop',
    result ++ map (openOf k) (new ++ if keep then [L0] else []) = result ++ map (openOf k) new' /\ Permutation (new' ++ drop') (BT ++ [L0]) /\
    (forall x, In x new' -> validated ts x) /\ (forall x, In x drop' -> ~ passes ts sc x)).
  { intros keep T1 T2. exists (new ++ if keep then [L0] else []), (drop ++ if keep then [] else [L0]). split; [reflexivity|]. split; [|split].
    - rewrite <- NP. destruct keep; rewrite ?app_nil_r; rewrite <- ?app_assoc; [|reflexivity]. apply Permutation_app_head, Permutation_app_comm.
    - intros x Hx. apply in_app_or in Hx. destruct Hx as [Hx|Hx]; [auto|]. destruct keep; [|destruct Hx]. destruct Hx as [<-|[]]. auto.
    - intros x Hx. apply in_app_or in Hx. destruct Hx as [Hx|Hx]; [now apply N2|]. destruct keep; [destruct Hx|]. destruct Hx as [<-|[]]. auto. }
  assert (Fin' : forall (keep : bool) r, r = Ok (result ++ map (openOf k) (new ++ if keep then [L0] else [])) -> (keep = true -> validated ts L0) -> (keep = false -> ~ passes ts sc L0) -> exists new' drop',
    r = Ok (result ++ map (openOf k) new') /\ Permutation (new' ++ drop') (BT ++ [L0]) /\
    (forall x, In x new' -> validated ts x) /\ (forall x, In x drop' -> ~ passes ts sc x)).
  { intros keep r -> T1 T2. destruct (Fin keep T1 T2) as (n' & d' & E & R). exists n', d'. rewrite E. auto. }
  clear Fin.
  destruct (proj1 Hts lp) as (bl & Ebl). rewrite Ebl. cbn [bind]. destruct bl; cbn [negb].
  2: { apply (Fin' false); [now rewrite app_nil_r|discriminate|]. intros _ Hp. destruct (HP Hp) as [V _]. unfold valid in V. congruence. }
  fold n in EE. rewrite EE. cbn [bind]. destruct b.
  2: { cbn [andb bind]. apply (Fin' false); [now rewrite app_nil_r|discriminate|]. intros _ Hp. destruct (HP Hp) as [_ V]. discriminate. }
  destruct (G1 eq_refl) as (-> & V2 & V3 & V4). cbn [vertexes andb]. change (length (vertexes (mkPline false L0))) with (length L0). destruct (Nat.ltb_spec 1 (length L0)); [|lia]. cbn [andb].
  assert (VL : validated ts L0) by (split; [now apply LV|rewrite LM; exact V4]).
  assert (Yes : result ++ map (openOf k) (new ++ [L0]) = (result ++ map (openOf k) new) ++ [openOf k L0]) by (now rewrite map_app, app_assoc).
  destruct sc; cbn [bind].
  - rewrite vget_at by (cbn [vertexes]; lia). cbn [bind].
    assert (Elv : lastVertex (mkPline false L0) = Ok e). { unfold lastVertex. cbn [vertexes]. rewrite EL, rev_app_distr. reflexivity. }
    rewrite Elv. cbn [bind].
    assert (Eh : at_ (mkPline false L0) 0 = hd vdflt L0) by reflexivity. rewrite Eh. rewrite thr_R.
    assert (El' : e = last L0 vdflt). { rewrite EL. change [us; e] with ([us] ++ [e]). rewrite app_assoc, last_last. reflexivity. }
    destruct (fuzzyEqual (pos (hd vdflt L0)) (pos e) (1 / 100000000)) eqn:Ef.
    + destruct (tltb (tlit 1 100) (getPathLength (mkPline false L0))) eqn:Eg.
      * apply (Fin' true); [now rewrite Yes|auto|discriminate].
      * apply (Fin' false); [now rewrite app_nil_r|discriminate|]. intros _ (_ & _ & HS). exfalso. rewrite <- El' in HS. specialize (HS eq_refl Ef).
        rcbn. rewrite Rltb_false in Eg. lra.
    + apply (Fin' true); [now rewrite Yes|auto|discriminate].
  - apply (Fin' true); [now rewrite Yes|auto|discriminate].
Qed.
End Runs.
