(** * C33: cutting a polyline at its intersects (any scalar implementation, any std::sort, any hash order) *)
From Coq Require Import ZArith Lia List Bool Arith Permutation.
From Verif Require Import Base Num MathUtils PlineSegment SpatialIndex Polyline Intersects Combine StdLaws PropsCoincident.
Import ListNotations.

Section C33.
Context {RO : RealOps} {SL : StdLib} {SLaws : StdLaws SL}.

(** ** Specification *)

(** the cuts on the first / second polyline: segment, position and whether a coincident stretch starts there when walking along that
    polyline *)
Local Notation cut := (nat * slicePoint)%type.
Definition cutsFirst (ci : combineInfo) : list cut :=
  map (fun x => (sIndex1 x, mkSP (ipos x) false)) (ciIntrs ci) ++
  map (fun x => (sIndex1 x, mkSP (ipos x) true)) (ciStarts ci) ++
  map (fun x => (sIndex1 x, mkSP (ipos x) false)) (ciEnds ci).
Definition cutsSecond (ci : combineInfo) : list cut :=
  map (fun x => (sIndex2 x, mkSP (ipos x) false)) (ciIntrs ci) ++
  flat_map (fun seo => match seo with (s, e, o) => [(sIndex2 s, mkSP (ipos s) (negb o)); (sIndex2 e, mkSP (ipos e) o)] end)
    (combine (combine (ciStarts ci) (ciEnds ci)) (ciOpposing ci)).
Definition cuts (ci : combineInfo) (second : bool) : list cut := if second then cutsSecond ci else cutsFirst ci.

(** the parallel vectors have the same length (C32) and every cut names a vertex of the polyline *)
Definition okCuts (ci : combineInfo) (second : bool) (n : nat) : Prop :=
  length (ciEnds ci) = length (ciStarts ci) /\ length (ciOpposing ci) = length (ciStarts ci) /\
  forall k p, In (k, p) (cuts ci second) -> (k < n)%nat.

(** the cuts of segment k, in the order they were found and in the order of their distance from the segment's start *)
Definition cutsAt (cs : list cut) (k : nat) : list slicePoint := map snd (filter (fun c => (fst c =? k)%nat) cs).
Definition sortedCuts (pl : polyline) (cs : list cut) (k : nat) : list slicePoint :=
  std_sort (fun a b => tltb (distSquared (spPos a) (pos (at_ pl k))) (distSquared (spPos b) (pos (at_ pl k)))) (cutsAt cs k).

(** a slice that may be kept: open, at least two vertices, its last segment's midpoint accepted by the caller's predicate, and starting
    and ending at a cut *)
Definition atCut (cs : list cut) (p : vec) : Prop := exists k c, In (k, c) cs /\ (near p (spPos c) \/ near (spPos c) p).
Definition goodSlice (cs : list cut) (pred : vec -> bool) (s : polyline) : Prop :=
  isClosed s = false /\ atCut cs (pos (hd vdflt (vertexes s))) /\ atCut cs (pos (last (vertexes s) vdflt)) /\
  exists l a b, vertexes s = l ++ [a; b] /\ pred (segMidpoint a b) = true.

(** ** The lookup table *)
Lemma mpush_spec {V} (m : list (nat * list V)) k v : NoDup (map fst m) ->
  NoDup (map fst (mpush k v m)) /\
  (forall k' l, In (k', l) (mpush k v m) <-> (k' <> k /\ In (k', l) m) \/ (k' = k /\ ((exists l0, In (k, l0) m /\ l = l0 ++ [v]) \/ (~ In k (map fst m) /\ l = [v])))).
Proof.
  induction m as [|[k0 l0] m IH]; intros Hnd.
  - cbn [mpush map fst In]. split; [repeat constructor; intros []|]. intros k' l. split.
    + intros [E|[]]. injection E as <- <-. right. split; auto.
    + intros [[_ []]|[-> [(l0 & [] & _)|[_ ->]]]]. now left.
  - cbn [map fst] in Hnd. inversion Hnd as [|? ? Hni Hnd']. subst. cbn [mpush]. destruct (Nat.eqb_spec k k0) as [<-|Hk].
    + cbn [map fst]. split; [auto|]. intros k' l. cbn [In map fst]. split.
      * intros [E|H].
        -- injection E as <- <-. right. split; [auto|]. left. exists l0. auto.
        -- left. split; [|auto]. intros ->. apply Hni. apply in_map_iff. exists (k, l). auto.
      * intros [[Hk [E|H]]|[-> [(l1 & [E|H] & ->)|[Hn ->]]]].
        -- injection E as <- <-. contradiction.
        -- auto.
        -- injection E as ->. auto.
        -- exfalso. apply Hni. apply in_map_iff. exists (k, l1). auto.
        -- exfalso. apply Hn. auto.
    + destruct (IH Hnd') as [N S]. cbn [map fst]. split.
      * constructor; [|auto]. intros H. apply in_map_iff in H. destruct H as ([k1 l1] & E & H). cbn in E. subst k1. apply S in H.
        destruct H as [[_ H]|[E _]]; [|congruence]. apply Hni. apply in_map_iff. exists (k0, l1). auto.
      * intros k' l. cbn [In]. rewrite S. cbn [map fst In]. split.
        -- intros [E|[[H1 H2]|[-> [(l1 & H & ->)|[Hn ->]]]]].
           ++ injection E as <- <-. left. split; auto.
           ++ left. auto.
           ++ right. split; [auto|]. left. exists l1. auto.
           ++ right. split; [auto|]. right. split; [|auto]. intros [E|H]; auto.
        -- intros [[H1 [E|H2]]|[-> [(l1 & [E|H] & ->)|[Hn ->]]]].
           ++ left. exact E.
           ++ right. left. auto.
           ++ injection E as <- <-. contradiction.
           ++ right. right. split; [auto|]. left. exists l1. auto.
           ++ right. right. split; [auto|]. right. split; [|auto]. intros H. apply Hn. auto.
Qed.

Definition pushAll (cs : list cut) (m : lookup) : lookup := fold_left (fun m c => mpush (fst c) (snd c) m) cs m.

Definition represents (cs : list cut) (m : lookup) : Prop :=
  NoDup (map fst m) /\ forall k l, In (k, l) m <-> l = cutsAt cs k /\ l <> [].

Lemma pushAll_spec cs : represents cs (pushAll cs []).
Proof.
  induction cs as [|[k v] cs IH] using rev_ind.
  - split; [constructor|]. intros k l. cbn. split; [intros []|intros [-> H]; now apply H].
  - unfold pushAll. rewrite fold_left_app. cbn [fold_left fst snd]. fold (pushAll cs []). destruct IH as [N S].
    destruct (mpush_spec (pushAll cs []) k v N) as [N' S']. split; [exact N'|]. intros k' l. rewrite S'. clear N' S'.
    assert (Ea : cutsAt (cs ++ [(k, v)]) k' = cutsAt cs k' ++ (if (k =? k')%nat then [v] else [])).
    { unfold cutsAt. rewrite filter_app, map_app. cbn [filter fst]. now destruct (Nat.eqb_spec k k'). }
    rewrite Ea. destruct (Nat.eqb_spec k k') as [<-|Hk].
    + split.
      * intros [[H _]|[_ [(l0 & H & ->)|[Hn ->]]]]; [congruence| |].
        -- apply S in H. destruct H as [-> _]. split; [auto|]. intros E. apply app_eq_nil in E. destruct E; discriminate.
        -- split; [|discriminate]. destruct (cutsAt cs k) as [|a l] eqn:E; [reflexivity|]. exfalso. apply Hn. apply in_map_iff. exists (k, a :: l). split; [auto|]. apply S. rewrite E. split; [auto|discriminate].
      * intros [-> _]. right. split; [auto|]. destruct (cutsAt cs k) as [|a l] eqn:E.
        -- right. split; [|auto]. intros H. apply in_map_iff in H. destruct H as ([k1 l1] & E1 & H). cbn in E1. subst k1. apply S in H. destruct H as [-> H]. now apply H.
        -- left. exists (a :: l). split; [|auto]. apply S. rewrite E. split; [auto|discriminate].
    + rewrite app_nil_r. rewrite S. split; [intros [[_ H]|[E _]]; [auto|congruence]|]. intros H. left. split; [auto|]. exact H.
Qed.

Lemma buildLookup_spec ci second n : okCuts ci second n -> buildLookup ci second = Ok (pushAll (cuts ci second) []).
Proof.
  intros (L1 & L2 & _). unfold buildLookup, cuts, pushAll. destruct second.
  - unfold cutsSecond. rewrite fold_left_app.
    replace (fold_left (fun m c => mpush (fst c) (snd c) m) (map (fun x => (sIndex2 x, mkSP (ipos x) false)) (ciIntrs ci)) [])
      with (fold_left (fun m i => mpush (sIndex2 i) (mkSP (ipos i) false) m) (ciIntrs ci) []).
    2:{ generalize (@nil (nat * list slicePoint)). induction (ciIntrs ci) as [|x l IH]; intros m; [reflexivity|]. cbn [fold_left map fst snd]. apply IH. }
    generalize (fold_left (fun m i => mpush (sIndex2 i) (mkSP (ipos i) false) m) (ciIntrs ci) []).
    revert L1 L2. generalize (ciEnds ci) (ciOpposing ci). induction (ciStarts ci) as [|s ss IH]; intros es os L1 L2 m.
    + destruct es; [|discriminate]. reflexivity.
    + destruct es as [|e es]; [discriminate|]. destruct os as [|o os]; [discriminate|]. cbn [pushCoinc2 combine flat_map app fold_left fst snd].
      rewrite IH by (cbn in *; lia). now destruct o.
  - unfold cutsFirst. rewrite !fold_left_app. f_equal.
    assert (G : forall f l (m : lookup), fold_left (fun m (i : pIntr) => mpush (sIndex1 i) (mkSP (ipos i) f) m) l m =
       fold_left (fun m c => mpush (fst c) (snd c) m) (map (fun x => (sIndex1 x, mkSP (ipos x) f)) l) m).
    { intros f. induction l as [|x l IH]; intros m; [reflexivity|]. cbn [fold_left map fst snd]. apply IH. }
    now rewrite !G.
Qed.

(** the sorted table *)
Definition representsSorted (pl : polyline) (cs : list cut) (m : lookup) : Prop :=
  NoDup (map fst m) /\ forall k l, In (k, l) m <-> l = sortedCuts pl cs k /\ l <> [].

Lemma sortLookup_spec pl cs m : represents cs m -> (forall k p, In (k, p) cs -> (k < length (vertexes pl))%nat) ->
  exists m', sortLookup pl m = Ok m' /\ representsSorted pl cs m'.
Proof.
  intros [N S] Hk.
  exists (map (fun kl : nat * list slicePoint => (fst kl, std_sort (fun a b => tltb (distSquared (spPos a) (pos (at_ pl (fst kl)))) (distSquared (spPos b) (pos (at_ pl (fst kl))))) (snd kl))) m).
  split; [|split].
  - assert (Hm : forall k l, In (k, l) m -> (k < length (vertexes pl))%nat).
    { intros k l H. apply S in H. destruct H as [-> H]. unfold cutsAt in H. destruct (filter (fun c => (fst c =? k)%nat) cs) as [|[k0 p] t] eqn:E; [now elim H|].
      assert (I : In (k0, p) (filter (fun c : cut => (fst c =? k)%nat) cs)) by (rewrite E; now left). apply filter_In in I. destruct I as [I1 I2].
      apply Nat.eqb_eq in I2. cbn in I2. subst. eauto. }
    clear N S. unfold sortLookup. induction m as [|[k l] m IH]; [reflexivity|]. cbn [mmap map fst snd].
    rewrite vget_at by (apply (Hm k l); now left). cbn [bind]. rewrite IH by (intros; apply (Hm k0 l0); now right). reflexivity.
  - rewrite map_map. cbn [fst]. exact N.
  - intros k l. rewrite in_map_iff. split.
    + intros ([k0 l0] & E & H). cbn [fst snd] in E. injection E as <- <-. apply S in H. destruct H as [-> H]. split; [reflexivity|].
      intros E. pose proof (sort_perm _ (fun a b => tltb (distSquared (spPos a) (pos (at_ pl k0))) (distSquared (spPos b) (pos (at_ pl k0)))) (cutsAt cs k0)) as P.
      rewrite E in P. apply Permutation_nil in P. contradiction.
    + intros [-> H]. exists (k, cutsAt cs k). split; [reflexivity|]. apply S. split; [auto|]. intros E. apply H. unfold sortedCuts. rewrite E.
      pose proof (sort_perm _ (fun a b => tltb (distSquared (spPos a) (pos (at_ pl k))) (distSquared (spPos b) (pos (at_ pl k)))) []) as P.
      now apply Permutation_sym, Permutation_nil in P.
Qed.

Lemma mfind_spec {W} (m : list (nat * W)) k l : NoDup (map fst m) -> (mfind k m = Some l <-> In (k, l) m).
Proof.
  induction m as [|[k0 l0] m IH]; intros Hnd; [cbn; split; [discriminate|intros []]|]. cbn [map fst] in Hnd. inversion Hnd as [|? ? Hni Hnd']. subst.
  cbn [mfind In]. destruct (Nat.eqb_spec k k0) as [->|Hk].
  - split; [intros E; injection E as ->; now left|]. intros [E|H]; [now injection E as ->|]. exfalso. apply Hni. apply in_map_iff. exists (k0, l). auto.
  - rewrite IH by auto. split; [auto|]. intros [E|H]; [injection E as -> ->; contradiction|auto].
Qed.

Lemma sortedCuts_In pl cs k c : In c (sortedCuts pl cs k) <-> In (k, c) cs.
Proof.
  unfold sortedCuts. split; intros H.
  - apply (Permutation_in _ (sort_perm _ _ _)) in H. unfold cutsAt in H. apply in_map_iff in H. destruct H as ([k0 c0] & E & H). cbn in E. subst.
    apply filter_In in H. destruct H as [H E]. apply Nat.eqb_eq in E. cbn in E. now subst.
  - apply (Permutation_in _ (Permutation_sym (sort_perm _ _ _))). unfold cutsAt. apply in_map_iff. exists (k, c). split; [auto|]. apply filter_In. cbn. now rewrite Nat.eqb_refl.
Qed.

(** what the walk below needs to know of the sorted table: it lists exactly the segments with cuts, each with some of its cuts *)
Definition table (cs : list cut) (m : lookup) : Prop :=
  NoDup (map fst m) /\ (forall k l, In (k, l) m -> l <> [] /\ forall c, In c l -> In (k, c) cs) /\ (forall k c, In (k, c) cs -> exists l, In (k, l) m).
Lemma sorted_table pl cs m : representsSorted pl cs m -> table cs m.
Proof.
  intros [N S]. split; [auto|]. split.
  - intros k l H. apply S in H. destruct H as [-> H]. split; [auto|]. intros c. apply sortedCuts_In.
  - intros k c H. exists (sortedCuts pl cs k). apply S. split; [auto|]. intros E. apply (sortedCuts_In pl) in H. rewrite E in H. destruct H.
Qed.

(** ** Walking from one cut to the next *)
(** number of steps from vertex i forward to vertex j *)
Definition steps (n i j : nat) : nat := if (i <=? j)%nat then (j - i)%nat else (n + j - i)%nat.
Lemma steps_next n i j : (i < n)%nat -> (j < n)%nat -> i <> j -> steps n i j = S (steps n (nextWrappingIndex i n) j).
Proof.
  intros Hi Hj Hne. unfold steps, nextWrappingIndex. destruct (Nat.eqb_spec (S i) n); destruct (Nat.leb_spec i j); (destruct (Nat.leb_spec 0 j) || destruct (Nat.leb_spec (S i) j)); destruct (Nat.leb_spec (S i) j); lia.
Qed.
Lemma steps_lt n i j : (i < n)%nat -> (j < n)%nat -> (steps n i j < n)%nat.
Proof. intros. unfold steps. destruct (Nat.leb_spec i j); lia. Qed.

(** first vertex, for non-empty lists *)
Lemma addOrReplace_cases s (v : vertex) : vertexes s <> [] ->
  (vertexes (addOrReplaceIfSamePos s v) = vertexes s ++ [v] \/
   exists l w, vertexes s = l ++ [w] /\ fuzzyEqual (pos w) (pos v) realPrecision = true /\ vertexes (addOrReplaceIfSamePos s v) = l ++ [mkVtx (pos w) (bulge v)]) /\
  isClosed (addOrReplaceIfSamePos s v) = isClosed s.
Proof.
  intros Hne. unfold addOrReplaceIfSamePos. destruct (exists_last Hne) as (l & w & E). rewrite E, rev_app_distr. cbn [rev app].
  destruct (fuzzyEqual (pos w) (pos v) realPrecision) eqn:Ef; cbn [vertexes isClosed addVertex].
  - split; [|auto]. right. exists l, w. rewrite rev_involutive. auto.
  - split; [|auto]. left. unfold addVertex. cbn [vertexes]. now rewrite E.
Qed.

Lemma updatedStart_pos v1 v2 p : pos (updatedStart (splitAtPoint v1 v2 p)) = pos v1 \/ pos (updatedStart (splitAtPoint v1 v2 p)) = p.
Proof.
  unfold splitAtPoint. destruct (bulgeIsZero v1); [now left|]. destruct (_ || _); [now right|]. destruct (fuzzyEqual _ _ _); now left.
Qed.

Lemma sliceLoop_ok pl m cs target : table cs m -> (forall k p, In (k, p) cs -> (k < length (vertexes pl))%nat) ->
  (target < length (vertexes pl))%nat -> (exists p, In (target, p) cs) ->
  forall fuel index s, (index < length (vertexes pl))%nat -> (steps (length (vertexes pl)) index target < fuel)%nat ->
  isClosed s = false -> vertexes s <> [] -> atCut cs (pos (hd vdflt (vertexes s))) ->
  exists s', sliceLoop fuel pl m s index = Ok s' /\ isClosed s' = false /\ vertexes s' <> [] /\
    atCut cs (pos (hd vdflt (vertexes s'))) /\ atCut cs (pos (last (vertexes s') vdflt)).
Proof.
  intros (Nm & Sm & Tm) Hk Ht [pt Hpt]. induction fuel as [|fuel IH]; intros index s Hi Hf Hc Hne Hh; [lia|].
  cbn [sliceLoop]. rewrite vget_at by auto. cbn [bind].
  destruct (addOrReplace_cases s (at_ pl index) Hne) as [Hadd Hcl]. set (s1 := addOrReplaceIfSamePos s (at_ pl index)) in *. clearbody s1.
  assert (Hne1 : vertexes s1 <> []).
  { destruct Hadd as [->|(l & w & _ & _ & ->)]; intros E; apply app_eq_nil in E; destruct E; discriminate. }
  assert (Hh1 : atCut cs (pos (hd vdflt (vertexes s1)))).
  { destruct Hadd as [->|(l & w & E & _ & ->)].
    - destruct (vertexes s); [contradiction|exact Hh].
    - rewrite E in Hh. destruct l; exact Hh. }
  rewrite Hc in Hcl. clear Hadd.
  destruct (mfind index m) as [l|] eqn:Ef.
  - apply mfind_spec in Ef; [|auto]. apply Sm in Ef. destruct Ef as [El Hl].
    destruct l as [|p l]; [contradiction|].
    assert (Ip : In (index, p) cs) by (apply Hl; now left).
    unfold size. rewrite vget_at by now apply next_lt. cbn [bind].
    destruct (exists_last Hne1) as (l1 & w & E1).
    assert (Elv : lastVertex s1 = Ok w) by (unfold lastVertex; rewrite E1, rev_app_distr; reflexivity). rewrite Elv. cbn [bind].
    set (us := updatedStart (splitAtPoint w (at_ pl (nextWrappingIndex index (length (vertexes pl)))) (spPos p))).
    assert (Eset : setLastVertex s1 us = Ok (mkPline (isClosed s1) (l1 ++ [us]))).
    { unfold setLastVertex. rewrite E1, rev_app_distr. cbn [rev app]. now rewrite rev_involutive. }
    rewrite Eset. cbn [bind]. eexists. split; [reflexivity|].
    destruct (addOrReplace_cases (mkPline (isClosed s1) (l1 ++ [us])) (mkVtx (spPos p) t0)) as [Hadd Hcl2].
    { cbn [vertexes]. intros E; apply app_eq_nil in E; destruct E; discriminate. }
    set (s2 := addOrReplaceIfSamePos _ _) in *. clearbody s2. cbn [isClosed] in Hcl2. split; [congruence|].
    assert (Hus : atCut cs (pos (hd vdflt (l1 ++ [us])))).
    { rewrite E1 in Hh1. destruct l1 as [|x l1]; [|exact Hh1]. cbn [app hd] in *. unfold us.
      destruct (updatedStart_pos w (at_ pl (nextWrappingIndex index (length (vertexes pl)))) (spPos p)) as [->| ->]; [auto|].
      exists index, p. split; [auto|]. left. now left. }
    cbn [vertexes] in Hadd. destruct Hadd as [Ea|(l' & w' & E' & Efz & Ea)]; rewrite Ea.
    + split; [intros E; apply app_eq_nil in E; destruct E; discriminate|]. split.
      * destruct l1; exact Hus.
      * rewrite last_last. exists index, p. split; [auto|]. left. now left.
    + apply app_inj_tail in E'. destruct E' as [<- <-]. split; [intros E; apply app_eq_nil in E; destruct E; discriminate|]. split.
      * destruct l1; exact Hus.
      * rewrite last_last. cbn [pos]. exists index, p. split; [auto|]. left. right. exact Efz.
  - assert (index <> target).
    { intros ->. destruct (Tm _ _ Hpt) as [l H]. apply mfind_spec in H; [congruence|auto]. }
    unfold size. apply IH; auto; [now apply next_lt|]. rewrite (steps_next _ index) in Hf by auto. lia.
Qed.

Lemma midSlices_ok pred segEnd cs k rest : forall prevVertex prevPt result, In (k, prevPt) cs -> (forall c, In c rest -> In (k, c) cs) ->
  atCut cs (pos prevVertex) ->
  exists slices, midSlices pred segEnd prevVertex prevPt rest result = result ++ slices /\ List.Forall (goodSlice cs pred) slices /\ (length slices <= length rest)%nat.
Proof.
  induction rest as [|p rest IH]; intros prevVertex prevPt result Hp Hr Hv.
  - exists []. cbn [midSlices]. rewrite app_nil_r. auto.
  - cbn [midSlices]. set (sp := splitAtPoint prevVertex segEnd (spPos p)).
    assert (Ip : In (k, p) cs) by (apply Hr; now left).
    assert (Hsv : atCut cs (pos (splitVertex sp))) by (exists k, p; split; [auto|]; left; apply split_pos).
    assert (Hus : atCut cs (pos (updatedStart sp))).
    { destruct (updatedStart_pos prevVertex segEnd (spPos p)) as [E|E]; unfold sp; rewrite E; [auto|]. exists k, p. split; [auto|]. left. now left. }
    match goal with |- context [midSlices pred segEnd (splitVertex sp) p rest ?r] => set (r1 := r) end.
    assert (exists one, r1 = result ++ one /\ List.Forall (goodSlice cs pred) one /\ (length one <= 1)%nat) as (one & -> & Hone & Hone1).
    { unfold r1. destruct (spStart prevPt); [exists []; rewrite app_nil_r; cbn; auto|]. destruct (fuzzyEqual _ _ _); [exists []; rewrite app_nil_r; cbn; auto|].
      destruct (pred (segMidpoint (updatedStart sp) (splitVertex sp))) eqn:Ep; cbn [negb]; [|exists []; rewrite app_nil_r; split; [auto|split; [auto|cbn; lia]]].
      eexists. split; [reflexivity|]. split; [|cbn; lia]. constructor; [|constructor]. unfold goodSlice. cbn [isClosed vertexes hd last]. split; [auto|]. split; [auto|]. split; [auto|].
      exists [], (updatedStart sp), (splitVertex sp). split; [reflexivity|auto]. }
    destruct (IH (splitVertex sp) p (result ++ one) Ip (fun c H => Hr c (or_intror H)) Hsv) as (slices & -> & Hs & Hs1).
    exists (one ++ slices). rewrite app_assoc. split; [reflexivity|]. rewrite app_length. cbn [length]. split; [apply Forall_app; auto|lia].
Qed.

Lemma sliceOne_ok pl m cs pred k l result : table cs m -> (forall k p, In (k, p) cs -> (k < length (vertexes pl))%nat) ->
  In (k, l) m -> exists slices, sliceOne pl m pred result (k, l) = Ok (result ++ slices) /\ List.Forall (goodSlice cs pred) slices /\ (length slices <= length l)%nat.
Proof.
  intros Rm Hk Hin. pose proof Rm as (Nm & Sm & _). apply Sm in Hin. destruct Hin as [Hne Hl].
  destruct l as [|p0 rest]; [contradiction|]. unfold sliceOne, size.
  assert (Ik : (k < length (vertexes pl))%nat) by (apply (Hk k p0), Hl; now left).
  pose proof (next_lt _ _ Ik) as In1. rewrite !vget_at by auto. cbn [bind].
  match goal with |- context [if negb ?c then ?a else result] => set (r1 := if negb c then a else result) end.
  assert (exists one, r1 = result ++ one /\ List.Forall (goodSlice cs pred) one /\ (length one <= length rest)%nat) as (one & -> & Hone & Hone1).
  { unfold r1. destruct (negb _); [|exists []; rewrite app_nil_r; cbn; split; [auto|split; [auto|lia]]]. apply (midSlices_ok pred _ cs k); [apply Hl; now left|intros; apply Hl; now right|].
    exists k, p0. split; [apply Hl; now left|]. left. apply split_pos. }
  assert (Hlast : In (last rest p0) (p0 :: rest)).
  { destruct rest as [|y rest]; [now left|]. right.
    destruct (exists_last (l := y :: rest) ltac:(discriminate)) as (l' & x & ->). rewrite last_last. apply in_or_app. right. now left. }
  destruct (spStart (last rest p0)); [exists one; cbn [length]; auto|].
  destruct (sliceLoop_ok pl m cs k Rm Hk Ik (ex_intro _ p0 (Hl p0 (or_introl eq_refl))) (S (length (vertexes pl))) (nextWrappingIndex k (length (vertexes pl)))
     (mkPline false [splitVertex (splitAtPoint (at_ pl k) (at_ pl (nextWrappingIndex k (length (vertexes pl)))) (spPos (last rest p0)))])) as (s & -> & Hc & Hn & Hh & Hlst); auto.
  { pose proof (steps_lt _ _ _ In1 Ik). lia. }
  { discriminate. }
  { cbn [vertexes hd]. exists k, (last rest p0). split; [now apply Hl|]. left. apply split_pos. }
  cbn [bind]. destruct (Nat.ltb_spec 1 (length (vertexes s))) as [L|L]; [|exists one; cbn [length]; auto].
  destruct (exists_last Hn) as (l1 & b & E1). destruct (exists_last (l := l1) ltac:(intros ->; rewrite E1 in L; cbn in L; lia)) as (l2 & a & ->).
  rewrite vget_at by lia. cbn [bind].
  assert (Ea : at_ s (length (vertexes s) - 2) = a).
  { unfold at_. rewrite E1, !app_length. cbn [length]. rewrite <- app_assoc. rewrite app_nth2 by lia. replace (length l2 + 1 + 1 - 2 - length l2)%nat with 0%nat by lia. reflexivity. }
  assert (Eb : lastVertex s = Ok b) by (unfold lastVertex; rewrite E1, rev_app_distr; reflexivity). rewrite Ea, Eb. cbn [bind].
  destruct (pred (segMidpoint a b)) eqn:Ep; [|exists one; cbn [length]; auto].
  exists (one ++ [s]). rewrite app_assoc. split; [reflexivity|]. split; [|rewrite app_length; cbn [length]; lia]. apply Forall_app. split; [auto|]. constructor; [|constructor].
  unfold goodSlice. split; [auto|]. split; [auto|]. split; [auto|]. exists l2, a, b. split; [rewrite E1, <- app_assoc; reflexivity|auto].
Qed.

(** number of cut points in the table *)
Definition entries (m : lookup) : nat := list_sum (map (fun kl => length (snd kl)) m).
Lemma entries_perm m m' : Permutation m m' -> entries m = entries m'.
Proof. intros H. unfold entries. induction H; cbn [map snd]; unfold list_sum in *; cbn [fold_right] in *; lia. Qed.
Lemma mpush_entries k v (m : lookup) : entries (mpush k v m) = S (entries m).
Proof.
  unfold entries. induction m as [|[k0 l0] m IH]; [reflexivity|]. cbn [mpush]. destruct (k =? k0)%nat; cbn [map snd]; unfold list_sum in *; cbn [fold_right] in *; [rewrite app_length; cbn [length]; lia|].
  unfold list_sum in IH. lia.
Qed.
Lemma pushAll_entries cs : entries (pushAll cs []) = length cs.
Proof.
  induction cs as [|[k v] cs IH] using rev_ind; [reflexivity|]. unfold pushAll. rewrite fold_left_app. cbn [fold_left fst snd]. fold (pushAll cs []).
  rewrite mpush_entries, IH, app_length. cbn. lia.
Qed.
Lemma sort_entries pl m m' : sortLookup pl m = Ok m' -> entries m' = entries m.
Proof.
  unfold sortLookup, entries. revert m'. induction m as [|[k l] m IH]; intros m' E; [cbn in E; injection E as <-; reflexivity|].
  cbn [mmap] in E. destruct (vget pl k) as [v| |]; cbn [bind] in E; try discriminate.
  match type of E with (let! _ := ?x in _) = _ => destruct x as [m1| |] eqn:E1 end; cbn [bind] in E; try discriminate.
  injection E as <-. cbn [map list_sum fold_right snd]. specialize (IH m1 eq_refl). unfold list_sum in IH. rewrite IH.
  rewrite (Permutation_length (sort_perm _ _ l)). reflexivity.
Qed.

(** ** C33 *)

(** the loop guard never fires and no vertex is read out of range; every slice added is good and there is at most one per
    cut *)
Theorem C33_safe pl ci second pred result : okCuts ci second (length (vertexes pl)) ->
  exists slices, sliceAtIntersects pl ci second pred result = Ok (result ++ slices) /\ List.Forall (goodSlice (cuts ci second) pred) slices /\
    (length slices <= length (cuts ci second))%nat.
Proof.
  intros Hok. pose proof Hok as (_ & _ & Hk). unfold sliceAtIntersects. rewrite (buildLookup_spec _ _ _ Hok). cbn [bind].
  destruct (sortLookup_spec pl _ _ (pushAll_spec (cuts ci second)) Hk) as (m & Em & Rm). rewrite Em. cbn [bind].
  assert (Hin : forall k l, In (k, l) (map_order m) -> In (k, l) m) by (intros k l H; apply (Permutation_in _ (order_perm _ m)); exact H).
  assert (Hcnt : entries (map_order m) = length (cuts ci second)).
  { rewrite (entries_perm _ _ (order_perm _ m)), (sort_entries _ _ _ Em). apply pushAll_entries. }
  rewrite <- Hcnt. clear Hcnt. revert result Hin. generalize (map_order m) as L. induction L as [|[k l] L IH]; intros result Hin.
  - exists []. cbn [mfold]. rewrite app_nil_r. auto.
  - cbn [mfold]. destruct (sliceOne_ok pl m _ pred k l result (sorted_table _ _ _ Rm) Hk (Hin k l (or_introl eq_refl))) as (one & -> & H1 & N1). cbn [bind].
    destruct (IH (result ++ one) (fun k l H => Hin k l (or_intror H))) as (sl & -> & H2 & N2). exists (one ++ sl). rewrite app_assoc. split; [reflexivity|].
    split; [apply Forall_app; auto|]. rewrite app_length. unfold entries, list_sum in *. cbn [map snd fold_right] in *. lia.
Qed.

(** ** C33, exactly, when no cut and no two consecutive vertices are within the library's tolerance of a vertex *)

Definition sep (pl : polyline) (cs : list cut) : Prop :=
  (forall i, (i < length (vertexes pl))%nat -> fuzzyEqual (pos (at_ pl i)) (pos (nextV pl i)) realPrecision = false) /\
  (forall k c i, In (k, c) cs -> (i < length (vertexes pl))%nat ->
     fuzzyEqual (spPos c) (pos (at_ pl i)) realPrecision = false /\ fuzzyEqual (pos (at_ pl i)) (spPos c) realPrecision = false).

(** the stretches between consecutive cuts [p], [rest...] of one segment ending in [segEnd]; [w] is the vertex at [p] carrying the bulge
    of the rest of the segment.  A stretch that is coincident with the other polyline or shorter than the tolerance is not a stretch. *)
Fixpoint between (segEnd w : vertex) (p : slicePoint) (rest : list slicePoint) : list (list vertex) :=
  match rest with
  | [] => []
  | q :: rest' =>
      let s := splitAtPoint w segEnd (spPos q) in
      (if spStart p || fuzzyEqual (pos (updatedStart s)) (pos (splitVertex s)) realPrecision then [] else [[updatedStart s; splitVertex s]]) ++
      between segEnd (splitVertex s) q rest'
  end.

(** vertex number k + d, counted around the polyline *)
Definition vert (pl : polyline) (k d : nat) : vertex := at_ pl ((k + d) mod length (vertexes pl)).

(** the stretch from the last cut [p] of segment k to the first cut of the next segment (going around) that has cuts *)
Definition onward (pl : polyline) (cs : list cut) (k : nat) (p : slicePoint) : list (list vertex) :=
  if spStart p then [] else
  let n := length (vertexes pl) in
  match find (fun d => match sortedCuts pl cs ((k + d) mod n) with [] => false | _ => true end) (seq 1 n) with
  | Some d =>
      match sortedCuts pl cs ((k + d) mod n) with
      | q :: _ => [ [splitVertex (splitAtPoint (vert pl k 0) (vert pl k 1) (spPos p))] ++ map (vert pl k) (seq 1 (d - 1)) ++
                    [updatedStart (splitAtPoint (vert pl k d) (vert pl k (S d)) (spPos q)); mkVtx (spPos q) t0] ]
      | [] => []
      end
  | None => []
  end.

(** all stretches that begin on segment k *)
Definition stretches (pl : polyline) (cs : list cut) (k : nat) : list (list vertex) :=
  match sortedCuts pl cs k with
  | [] => []
  | p :: rest => between (vert pl k 1) (splitVertex (splitAtPoint (vert pl k 0) (vert pl k 1) (spPos p))) p rest ++ onward pl cs k (last rest p)
  end.

(** the predicate accepts the midpoint of the last segment *)
Definition accepted (pred : vec -> bool) (l : list vertex) : bool :=
  match rev l with b :: a :: _ => pred (segMidpoint a b) | _ => false end.

Lemma next_mod i n : (0 < n)%nat -> nextWrappingIndex (i mod n) n = (S i mod n)%nat.
Proof.
  intros Hn. unfold nextWrappingIndex. pose proof (Nat.mod_upper_bound i n ltac:(lia)). rewrite <- (Nat.add_1_r i), <- (Nat.add_mod_idemp_l i 1 n) by lia.
  destruct (Nat.eqb_spec (S (i mod n)) n) as [E|E].
  - replace (i mod n + 1)%nat with n by lia. now rewrite Nat.mod_same by lia.
  - rewrite (Nat.mod_small (i mod n + 1)) by lia. lia.
Qed.

Lemma accepted_snoc pred l a b : accepted pred (l ++ [a; b]) = pred (segMidpoint a b).
Proof. unfold accepted. rewrite rev_app_distr. reflexivity. Qed.

Lemma midSlices_exact pred segEnd rest : forall w p result,
  midSlices pred segEnd w p rest result = result ++ map (mkPline false) (filter (accepted pred) (between segEnd w p rest)).
Proof.
  induction rest as [|q rest IH]; intros w p result; [cbn; now rewrite app_nil_r|]. cbn [midSlices between]. rewrite IH.
  rewrite filter_app, map_app, app_assoc. f_equal. set (sp := splitAtPoint w segEnd (spPos q)).
  destruct (spStart p); cbn [orb]; [cbn; now rewrite app_nil_r|]. destruct (fuzzyEqual _ _ _); [cbn; now rewrite app_nil_r|].
  cbn [filter]. unfold accepted. cbn [rev app]. destruct (pred _); cbn [negb map]; [reflexivity|now rewrite app_nil_r].
Qed.

Lemma addOrReplace_new s l w v : vertexes s = l ++ [w] -> fuzzyEqual (pos w) (pos v) realPrecision = false ->
  addOrReplaceIfSamePos s v = mkPline (isClosed s) (l ++ [w; v]).
Proof.
  intros E H. unfold addOrReplaceIfSamePos, addVertex. rewrite E, rev_app_distr. cbn [rev app]. rewrite H. now rewrite <- app_assoc.
Qed.

Lemma sliceLoop_exact pl m cs k d q t : representsSorted pl cs m -> (forall k p, In (k, p) cs -> (k < length (vertexes pl))%nat) -> sep pl cs ->
  let n := length (vertexes pl) in (0 < n)%nat ->
  (forall e, (1 <= e < d)%nat -> sortedCuts pl cs ((k + e) mod n) = []) -> sortedCuts pl cs ((k + d) mod n) = q :: t ->
  forall j i fuel s l w, (i + j = d)%nat -> (1 <= i)%nat -> (j < fuel)%nat -> isClosed s = false -> vertexes s = l ++ [w] ->
  fuzzyEqual (pos w) (pos (vert pl k i)) realPrecision = false ->
  sliceLoop fuel pl m s ((k + i) mod n) =
  Ok (mkPline false (vertexes s ++ map (vert pl k) (seq i j) ++
       [updatedStart (splitAtPoint (vert pl k d) (vert pl k (S d)) (spPos q)); mkVtx (spPos q) t0])).
Proof.
  intros [Nm Sm] Hk [Sv Sc] n Hn Hno Hyes. induction j as [|j IH]; intros i fuel s l w Hij Hi1 Hf Hc El Hw.
  - assert (i = d) by lia. subst i. destruct fuel as [|fuel]; [lia|]. cbn [sliceLoop].
    pose proof (Nat.mod_upper_bound (k + d) n ltac:(lia)) as Hb. rewrite vget_at by exact Hb. cbn [bind].
    rewrite (addOrReplace_new s l w (at_ pl ((k + d) mod n)) El Hw).
    assert (Ef : mfind ((k + d) mod n) m = Some (q :: t)) by (apply mfind_spec; [auto|]; apply Sm; rewrite Hyes; split; [auto|discriminate]).
    rewrite Ef. unfold size. fold n. rewrite next_mod by auto. rewrite vget_at by (apply Nat.mod_upper_bound; lia). cbn [bind].
    assert (Iq : In ((k + d) mod n, q) cs) by (apply (sortedCuts_In pl); rewrite Hyes; now left).
    unfold lastVertex at 1. cbn [vertexes]. replace (l ++ [w; at_ pl ((k + d) mod n)]) with ((l ++ [w]) ++ [at_ pl ((k + d) mod n)]) by now rewrite <- app_assoc.
    rewrite rev_app_distr. cbn [rev app bind]. unfold setLastVertex. cbn [vertexes isClosed]. rewrite rev_app_distr. cbn [rev app]. rewrite rev_involutive. cbn [bind].
    cbn [seq map app]. unfold vert. rewrite <- plus_n_Sm.
    assert (Sep2 := proj2 (Sc _ _ _ Iq Hb)). pose proof (Sv _ Hb) as Sep1. unfold nextV in Sep1. fold n in Sep1. rewrite next_mod in Sep1 by auto.
    set (us := updatedStart _).
    assert (Eus : pos us = pos (at_ pl ((k + d) mod n))).
    { unfold us, splitAtPoint. destruct (bulgeIsZero _); [reflexivity|]. rewrite Sep1, Sep2. cbn [orb]. clear Hw. destruct (fuzzyEqual (pos (at_ pl (S (k + d) mod n))) _ _); reflexivity. }
    rewrite (addOrReplace_new _ (l ++ [w]) us (mkVtx (spPos q) t0)); [|reflexivity|rewrite Eus; exact Sep2].
    cbn [isClosed]. rewrite Hc, El. reflexivity.
  - destruct fuel as [|fuel]; [lia|]. cbn [sliceLoop].
    pose proof (Nat.mod_upper_bound (k + i) n ltac:(lia)) as Hb. rewrite vget_at by exact Hb. cbn [bind].
    rewrite (addOrReplace_new s l w (at_ pl ((k + i) mod n)) El Hw).
    assert (Ef : mfind ((k + i) mod n) m = None).
    { destruct (mfind ((k + i) mod n) m) as [l0|] eqn:E; [|reflexivity]. apply mfind_spec in E; [|auto]. apply Sm in E. rewrite (Hno i) in E by lia. destruct E as [-> E]. now elim E. }
    rewrite Ef. unfold size. fold n. rewrite next_mod by auto. rewrite plus_n_Sm.
    rewrite (IH (S i) fuel _ (l ++ [w]) (at_ pl ((k + i) mod n))); [|lia|lia|lia|exact Hc|cbn [vertexes]; now rewrite <- app_assoc|].
    + cbn [vertexes seq map app]. rewrite El. rewrite <- !app_assoc. reflexivity.
    + pose proof (Sv _ Hb) as Sep1. unfold nextV in Sep1. fold n in Sep1. rewrite next_mod in Sep1 by auto. unfold vert. fold n. rewrite <- plus_n_Sm. exact Sep1.
Qed.

Lemma sliceOne_exact pl m cs pred k l result : representsSorted pl cs m -> (forall k p, In (k, p) cs -> (k < length (vertexes pl))%nat) -> sep pl cs ->
  In (k, l) m -> sliceOne pl m pred result (k, l) = Ok (result ++ map (mkPline false) (filter (accepted pred) (stretches pl cs k))).
Proof.
  intros Rm Hk Hsep Hin. pose proof Rm as [Nm Sm]. apply Sm in Hin. destruct Hin as [-> Hne]. unfold stretches.
  destruct (sortedCuts pl cs k) as [|p0 rest] eqn:Es; [contradiction|]. unfold sliceOne, size.
  assert (Hl : forall c, In c (p0 :: rest) -> In (k, c) cs) by (intros c Hc; apply (sortedCuts_In pl); now rewrite Es).
  assert (Ik : (k < length (vertexes pl))%nat) by (apply (Hk k p0), Hl; now left). set (n := length (vertexes pl)) in *.
  assert (Hn : (0 < n)%nat) by lia.
  pose proof (next_lt _ _ Ik) as In1. rewrite !vget_at by auto. cbn [bind].
  assert (E0 : at_ pl k = vert pl k 0) by (unfold vert; fold n; now rewrite Nat.add_0_r, Nat.mod_small).
  assert (En : nextWrappingIndex k n = ((k + 1) mod n)%nat) by (rewrite <- (Nat.mod_small k n) at 1 by auto; rewrite next_mod by auto; now rewrite Nat.add_1_r).
  assert (E1 : at_ pl (nextWrappingIndex k n) = vert pl k 1) by (rewrite En; reflexivity). rewrite E0, E1.
  match goal with |- context [if negb ?c then ?a else result] => set (r1 := if negb c then a else result) end.
  assert (Er : r1 = result ++ map (mkPline false) (filter (accepted pred) (between (vert pl k 1) (splitVertex (splitAtPoint (vert pl k 0) (vert pl k 1) (spPos p0))) p0 rest))).
  { unfold r1. destruct rest as [|q rest]; cbn [length Nat.eqb negb]; [cbn; now rewrite app_nil_r|]. apply midSlices_exact. }
  rewrite Er. clear Er r1. rewrite filter_app, map_app, app_assoc. set (r1 := result ++ _). clearbody r1.
  assert (Hlast : In (k, last rest p0) cs).
  { apply Hl. destruct rest as [|y rest]; [now left|]. right.
    destruct (exists_last (l := y :: rest) ltac:(discriminate)) as (l' & x & ->). rewrite last_last. apply in_or_app. right. now left. }
  unfold onward. destruct (spStart (last rest p0)); [cbn; now rewrite app_nil_r|]. fold n.
  set (P := fun d => match sortedCuts pl cs ((k + d) mod n) with [] => false | _ :: _ => true end).
  assert (exists d, find P (seq 1 n) = Some d /\ (1 <= d <= n)%nat /\ forall e, (1 <= e < d)%nat -> P e = false) as (d & Ed & Hd & Hfirst).
  { assert (Hex : exists e, In e (seq 1 n) /\ P e = true).
    { exists n. split; [apply in_seq; lia|]. unfold P. rewrite <- (Nat.mul_1_l n) at 1. rewrite Nat.mod_add, Nat.mod_small, Es by lia. reflexivity. }
    assert (G : forall len st, (exists e, In e (seq st len) /\ P e = true) -> exists d, find P (seq st len) = Some d /\ (st <= d < st + len)%nat /\ forall e, (st <= e < d)%nat -> P e = false).
    { induction len as [|len IH]; intros st (e & He & HP); [destruct He|]. cbn [seq find]. destruct (P st) eqn:Eps.
      - exists st. split; [auto|]. split; [lia|]. intros; lia.
      - destruct (IH (S st)) as (d & D1 & D2 & D3).
        { exists e. split; [|auto]. cbn [seq] in He. destruct He as [<-|He]; [congruence|auto]. }
        exists d. split; [auto|]. split; [lia|]. intros e' He'. destruct (Nat.eq_dec e' st) as [->|]; [auto|]. apply D3. lia. }
    destruct (G n 1%nat Hex) as (d & D1 & D2 & D3). exists d. split; [auto|]. split; [lia|auto]. }
  rewrite Ed. assert (HPd : P d = true) by (apply find_some in Ed; tauto). unfold P in HPd.
  destruct (sortedCuts pl cs ((k + d) mod n)) as [|q t] eqn:Eq; [discriminate|].
  set (w := splitVertex (splitAtPoint (vert pl k 0) (vert pl k 1) (spPos (last rest p0)))).
  assert (Hw : fuzzyEqual (pos w) (pos (vert pl k 1)) realPrecision = false).
  { unfold w, splitAtPoint. pose proof (Nat.mod_upper_bound (k + 1) n ltac:(lia)) as Hb1.
    destruct (proj2 Hsep _ _ _ Hlast Hb1) as [Q1 Q2]. destruct (bulgeIsZero _); [exact Q1|]. destruct (_ || _); [exact Q1|].
    unfold vert at 1. fold n. rewrite Q2. exact Q1. }
  rewrite En.
  assert (Hno : forall e, (1 <= e < d)%nat -> sortedCuts pl cs ((k + e) mod n) = []).
  { intros e He. specialize (Hfirst e He). unfold P in Hfirst. destruct (sortedCuts pl cs ((k + e) mod n)); [auto|discriminate]. }
  pose proof (sliceLoop_exact pl m cs k d q t Rm Hk Hsep Hn Hno Eq (d - 1) 1 (S n) (mkPline false [w]) [] w ltac:(lia) (le_n 1) ltac:(lia) eq_refl eq_refl Hw) as EE.
  fold n in EE. rewrite EE. clear EE.
  cbn [bind vertexes]. match goal with |- context [mkPline false ?L] => set (L0 := L) end.
  assert (EL : L0 = ([w] ++ map (vert pl k) (seq 1 (d - 1))) ++ [updatedStart (splitAtPoint (vert pl k d) (vert pl k (S d)) (spPos q)); mkVtx (spPos q) t0]) by (unfold L0; now rewrite <- app_assoc).
  cbn [filter]. replace ([w] ++ map (vert pl k) (seq 1 (d - 1)) ++ [updatedStart (splitAtPoint (vert pl k d) (vert pl k (S d)) (spPos q)); mkVtx (spPos q) t0]) with L0 by reflexivity.
  rewrite EL. clear EL L0. rewrite accepted_snoc. set (L1 := [w] ++ _). set (a := updatedStart _). set (b := mkVtx _ _).
  rewrite !app_length. cbn [length]. destruct (Nat.ltb_spec 1 (length L1 + 2)); [|lia].
  assert (Ea : vget (mkPline false (L1 ++ [a; b])) (length L1 + 2 - 2) = Ok a).
  { rewrite vget_at by (cbn [vertexes]; rewrite app_length; cbn; lia). unfold at_. cbn [vertexes]. rewrite app_nth2 by lia. replace (length L1 + 2 - 2 - length L1)%nat with 0%nat by lia. reflexivity. }
  rewrite Ea. cbn [bind]. unfold lastVertex. cbn [vertexes]. rewrite rev_app_distr. cbn [rev app bind].
  destruct (pred (segMidpoint a b)); cbn [map]; [reflexivity|now rewrite app_nil_r].
Qed.

(** the slices are exactly the accepted stretches between consecutive cuts, each once, in some order *)
Theorem C33_exact pl ci second pred result : okCuts ci second (length (vertexes pl)) -> sep pl (cuts ci second) ->
  exists slices, sliceAtIntersects pl ci second pred result = Ok (result ++ map (mkPline false) slices) /\
    Permutation slices (flat_map (fun k => filter (accepted pred) (stretches pl (cuts ci second) k)) (seq 0 (length (vertexes pl)))).
Proof.
  intros Hok Hsep. pose proof Hok as (_ & _ & Hk). unfold sliceAtIntersects. rewrite (buildLookup_spec _ _ _ Hok). cbn [bind].
  destruct (sortLookup_spec pl _ _ (pushAll_spec (cuts ci second)) Hk) as (m & -> & Rm). cbn [bind]. set (cs := cuts ci second) in *.
  set (F := fun k => filter (accepted pred) (stretches pl cs k)).
  assert (Hin : forall k l, In (k, l) (map_order m) -> In (k, l) m) by (intros k l H; apply (Permutation_in _ (order_perm _ m)); exact H).
  exists (flat_map F (map fst (map_order m))). split.
  - revert result Hin. generalize (map_order m) as L. induction L as [|[k l] L IH]; intros result Hin; [cbn; now rewrite app_nil_r|].
    cbn [mfold map fst flat_map]. rewrite (sliceOne_exact pl m cs pred k l result Rm Hk Hsep (Hin k l (or_introl eq_refl))). cbn [bind].
    rewrite IH by (intros; apply Hin; now right). fold (F k). now rewrite map_app, app_assoc.
  - rewrite (Permutation_flat_map F (Permutation_map fst (order_perm _ m))). destruct Rm as [Nm Sm].
    (* segments without cuts contribute nothing *)
    assert (Hz : forall k, ~ In k (map fst m) -> F k = []).
    { intros k Hn. unfold F, stretches. destruct (sortedCuts pl cs k) as [|p l] eqn:E; [reflexivity|]. exfalso. apply Hn. apply in_map_iff. exists (k, p :: l). split; [auto|]. apply Sm. rewrite E. split; [auto|discriminate]. }
    assert (Hlt : forall k, In k (map fst m) -> (k < length (vertexes pl))%nat).
    { intros k H. apply in_map_iff in H. destruct H as ([k0 l] & E & H). cbn in E. subst k0. apply Sm in H. destruct H as [-> H].
      destruct (sortedCuts pl cs k) as [|p t] eqn:E; [contradiction|]. apply (Hk k p). apply (sortedCuts_In pl). rewrite E. now left. }
    set (inM := fun k => existsb (Nat.eqb k) (map fst m)).
    assert (HinM : forall k, inM k = true <-> In k (map fst m)).
    { intros k. unfold inM. rewrite existsb_exists. split; [intros (x & Hx & E); apply Nat.eqb_eq in E; now subst|]. intros H. exists k. split; [auto|apply Nat.eqb_refl]. }
    transitivity (flat_map F (filter inM (seq 0 (length (vertexes pl))))).
    + apply Permutation_flat_map. apply NoDup_Permutation; [auto|apply NoDup_filter, seq_NoDup|]. intros k. rewrite filter_In, HinM, in_seq. split; [|tauto]. intros H. split; [|auto]. specialize (Hlt k H). lia.
    + assert (E : flat_map F (filter inM (seq 0 (length (vertexes pl)))) = flat_map F (seq 0 (length (vertexes pl)))); [|now rewrite E].
      generalize (seq 0 (length (vertexes pl))) as L. induction L as [|k L IH]; [reflexivity|]. cbn [filter flat_map]. destruct (inM k) eqn:E; cbn [flat_map]; [now rewrite IH|].
      rewrite Hz by (rewrite <- HinM; congruence). exact IH.
Qed.
End C33.

(** non-vacuity: a square cut in the middle of its second and third side *)
From Coq Require Import Reals Lra.
From Verif Require Import RGeom.
Open Scope R_scope.
Example C33_square : let pl := mkPline true [mkVertex 0 0 0; mkVertex 2 0 0; mkVertex 2 2 0; mkVertex 0 2 0] in
  let ci := mkInfo [] [mkIntr 1 0 (mkV 2 1); mkIntr 2 3 (mkV 1 2)] [] [] [] false false in
  okCuts ci false (length (vertexes pl)) /\ sep pl (cuts ci false) /\ okIdx pl pl (mkCIntr 1 0 (mkV 2 0) (mkV 2 1)).
Proof.
  intros pl ci.
  assert (F : forall a b c d, 1 <= Rabs (a - c) \/ 1 <= Rabs (b - d) -> fuzzyEqual (mkV a b) (mkV c d) realPrecision = false).
  { intros a b c d H. apply not_true_iff_false. intros E. rewrite prec_R in E. apply fuzzyEqual_R in E. cbn [vx vy] in E. destruct E. destruct H; lra. }
  split; [|split].
  - split; [reflexivity|]. split; [reflexivity|]. intros k p [E|[E|[]]]; injection E as <- <-; cbn; lia.
  - split.
    + intros i Hi. cbn [length vertexes pl] in Hi. do 4 (destruct i as [|i]; [apply F; cbn [vx vy]; unfold Rabs; repeat destruct Rcase_abs; lra|]). lia.
    + intros k c i [E|[E|[]]] Hi; injection E as <- <-; cbn [length vertexes pl] in Hi; (do 4 (destruct i as [|i]; [split; apply F; cbn [vx vy]; unfold Rabs; repeat destruct Rcase_abs; lra|]); lia).
  - split; cbn; lia.
Qed.

(** the cuts used on each segment are in the order of their distance from the segment's start *)
From Coq Require Import Sorted.
From Verif Require Import Spec PlineSegment.
Theorem C33_sorted {SL : StdLib} {SLaws : StdLaws SL} (pl : polyline) (cs : list (nat * slicePoint)) (k : nat) :
  Permutation (sortedCuts pl cs k) (cutsAt cs k) /\
  StronglySorted (fun a b => dist (pos (at_ pl k)) (spPos a) <= dist (pos (at_ pl k)) (spPos b)) (sortedCuts pl cs k).
Proof.
  split; [apply sort_perm|]. unfold sortedCuts. set (v := pos (at_ pl k)).
  assert (W : strictWeak (fun a b : slicePoint => tltb (distSquared (spPos a) v) (distSquared (spPos b) v))).
  { apply (strictWeak_key (fun x y : R => Rltb x y) (fun a => distSquared (spPos a) v)). split.
    - intros a. apply Rltb_false. lra.
    - intros a b c. rewrite !Rltb_spec. lra.
    - intros a b c. rewrite !Rltb_false. lra. }
  pose proof (sort_sorted _ _ (cutsAt cs k) W) as S. induction S as [|a l S IH F]; constructor; auto.
  eapply List.Forall_impl; [|exact F]. intros b Hb. rcbn. rbool. unfold distSquared, dot, vsub in Hb. rcbn. unfold dist. apply sqrt_le_1_alt. nra.
Qed.
