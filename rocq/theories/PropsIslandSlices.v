(** * C41: the results of ParallelOffsetIslands::compute that are stitched together from pieces of the offset loops *)
From Coq Require Import ZArith Reals Lra List Bool Arith Lia Permutation.
From Verif Require Import Base Num MathUtils PlineSegment SpatialIndex Polyline Intersects Combine Offset Islands StdLaws PropsCoincident PropsSlices PropsCombine PropsParallel PropsIslands.
Import ListNotations.

(** ** Specification *)
Section Spec.
Context {RO : RealOps} {SL : StdLib}.

(** [x] is reported as a point where the two loops meet: a crossing or the start or end of an overlap *)
Definition reported (l1 l2 : offsetLoop) (x : pIntr) : Prop :=
  exists intrs coinc, findIntersects defaultNodeSize (lpoly l1) (lpoly l2) (lindex l1) [] [] = Ok (intrs, coinc) /\
    (In x intrs \/ exists cs, sortAndjoinCoincidentSlices coinc (lpoly l1) (lpoly l2) = Ok cs /\ (In x (csStarts cs) \/ In x (csEnds cs))).

(** loop [l] meets another offset loop of the same input at [p], on its segment [k] *)
Definition meetsAt (input : loopSet) (absDelta : T) (l : offsetLoop) (k : nat) (p : vec) : Prop :=
  exists l' x, isOffsetOf input absDelta l' /\ ipos x = p /\ ((reported l l' x /\ sIndex1 x = k) \/ (reported l' l x /\ sIndex2 x = k)).

(** [p] is such a point up to the tolerance of fuzzyEqual *)
Definition nearMeeting (input : loopSet) (absDelta : T) (l : offsetLoop) (p : vec) : Prop :=
  exists k q, meetsAt input absDelta l k q /\ (near p q \/ near q p).

(** a piece of an offset loop of the input: open, from one meeting point to another, in between only vertices of the loop; the
    midpoint of its last segment passes the distance test against all input loops but the loop's parent *)
Definition pieceOfLoop (input : loopSet) (absDelta : T) (s : polyline) : Prop :=
  isClosed s = false /\ exists l, isOffsetOf input absDelta l /\ createApproxSpatialIndex (lpoly l) = Ok (lindex l) /\
    nearMeeting input absDelta l (pos (hd vdflt (vertexes s))) /\ nearMeeting input absDelta l (pos (last (vertexes s) vdflt)) /\
    (forall v, In v (vertexes s) -> nearMeeting input absDelta l (pos v) \/ In (pos v) (map pos (vertexes (lpoly l)))) /\
    exists vs a b, vertexes s = vs ++ [a; b] /\ farFromOthers input absDelta (parentLoopIndex l) (segMidpoint a b).

(** the closed polyline going through the slices one after the other, the last vertex of each replaced by the first of the next *)
Definition ring (ss : list polyline) : polyline := mkPline true (flat_map (fun s => removelast (vertexes s)) ss).
End Spec.

(** ** Proof *)
Section Generic.
Context {RO : RealOps} {SL : StdLib} {SLaws : StdLaws SL}.

(** *** Stitching *)
Lemma popBack_inv p p' : popBack p = Ok p' -> p' = mkPline (isClosed p) (removelast (vertexes p)).
Proof.
  unfold popBack. destruct (rev (vertexes p)) as [|v t] eqn:E; [discriminate|]. intros H. injection H as <-. f_equal.
  apply (f_equal (@rev _)) in E. rewrite rev_involutive in E. rewrite E. cbn [rev]. now rewrite removelast_app1.
Qed.

Lemma stitchLoop_ring slices sel d ix b fuel : (forall s, In s slices -> vertexes s <> []) ->
  forall visited result curr cur v' r pre s, stitchLoop fuel sel d slices ix b visited result curr cur = Ok (v', r) ->
  (forall x, In x pre -> In x slices) -> In s slices -> isClosed curr = false -> vertexes curr = flat_map (fun s => removelast (vertexes s)) pre ++ vertexes s ->
  (forall p, In p result -> exists ss, ss <> [] /\ (forall x, In x ss -> In x slices) /\ p = ring ss) ->
  (forall p, In p r -> exists ss, ss <> [] /\ (forall x, In x ss -> In x slices) /\ p = ring ss).
Proof.
  intros Hne. induction fuel as [|fuel IH]; intros visited result curr cur v' r pre s E Hpre Hs Hc Hv Hr; [discriminate|]. cbn [stitchLoop] in E.
  apply bind_inv in E. destruct E as (lv & _ & E). apply bind_inv in E. destruct E as (q & _ & E). apply bind_inv in E. destruct E as (q' & _ & E).
  destruct q' as [|a q']; [injection E as <- <-; auto|]. apply bind_inv in E. destruct E as (o & _ & E). destruct o as [c|]; [|injection E as <- <-; auto].
  assert (Hrl : removelast (vertexes curr) = flat_map (fun s => removelast (vertexes s)) (pre ++ [s])).
  { rewrite Hv, flat_map_app. cbn [flat_map]. rewrite app_nil_r. apply removelast_app. now apply Hne. }
  destruct (c =? b)%nat.
  - apply bind_inv in E. destruct E as (r1 & E1 & E). injection E as <- <-. unfold closePline in E1. destruct (_ <? 3)%nat; [injection E1 as <-; auto|].
    apply bind_inv in E1. destruct E1 as (p & Ep & E1). injection E1 as <-. apply popBack_inv in Ep. subst p. intros p Hp. apply in_app_or in Hp. destruct Hp as [Hp|[<-|[]]]; [auto|].
    exists (pre ++ [s]). split; [now destruct pre|]. split; [intros x Hx; apply in_app_or in Hx; destruct Hx as [Hx|[<-|[]]]; auto|]. unfold ring, setClosed. cbn [vertexes]. now rewrite Hrl.
  - apply bind_inv in E. destruct E as (s' & Es & E). apply bind_inv in E. destruct E as (p & Ep & E). apply bind_inv in E. destruct E as (v1 & _ & E). apply popBack_inv in Ep. subst p.
    cbn [isClosed vertexes] in E. eapply (IH _ _ _ _ _ _ (pre ++ [s]) s'); [exact E| | | | |exact Hr].
    + intros x Hx; apply in_app_or in Hx; destruct Hx as [Hx|[<-|[]]]; auto.
    + apply rget_inv in Es. eapply nth_error_In, Es.
    + exact Hc.
    + cbn [vertexes]. now rewrite Hrl.
Qed.

Lemma stitch_ring slices sel d r : (forall s, In s slices -> vertexes s <> []) -> stitchOrderedSlices slices sel d = Ok r ->
  forall p, In p r -> exists ss, ss <> [] /\ (forall x, In x ss -> In x slices) /\ p = ring ss.
Proof.
  intros Hne. unfold stitchOrderedSlices. destruct (_ =? _)%nat; intros E; [injection E as <-; intros p []|]. apply bind_inv in E. destruct E as (ix & _ & E).
  apply bind_inv in E. destruct E as ([v' r'] & E & E'). injection E' as <-.
  set (Q := fun st : list bool * list polyline => forall p, In p (snd st) -> exists ss, ss <> [] /\ (forall x, In x ss -> In x slices) /\ p = ring ss).
  enough (HQ : Q (v', r')) by exact HQ. refine (mfold_inv _ Q _ _ _ _ E _); unfold Q; [|intros p []].
  intros [vis res] i [vis' res'] _ Ei Hres. cbn [snd] in *. unfold stitchFrom in Ei. apply bind_inv in Ei. destruct Ei as (vi & _ & Ei). destruct vi; [injection Ei as <- <-; auto|].
  apply bind_inv in Ei. destruct Ei as (v3 & _ & Ei). apply bind_inv in Ei. destruct Ei as (s & Es & Ei). apply rget_inv, nth_error_In in Es.
  eapply (stitchLoop_ring _ _ _ _ _ _ Hne _ _ _ _ _ _ [] s Ei); auto. intros x [].
Qed.

(** *** Cutting one loop: the same walk as for boolean operations *)
Definition toSP (p : dissPoint) : slicePoint := mkSP (dpos p) false.
Definition toTable (m : list (nat * list dissPoint)) : lookup := map (fun kl => (fst kl, map toSP (snd kl))) m.

Lemma mfind_toTable m k : mfind k (toTable m) = option_map (map toSP) (mfind k m).
Proof. induction m as [|[k0 l] m IH]; [reflexivity|]. cbn [toTable map mfind fst snd]. destruct (k =? k0)%nat; [reflexivity|exact IH]. Qed.

Lemma dissLoop_slice pl m : forall fuel s i s' e, dissLoop fuel pl m s i = Ok (s', e) -> sliceLoop fuel pl (toTable m) s i = Ok s'.
Proof.
  induction fuel as [|fuel IH]; intros s i s' e E; [discriminate|]. cbn [dissLoop sliceLoop] in *. apply bind_inv in E. destruct E as (v & -> & E). cbn [bind].
  rewrite mfind_toTable. destruct (mfind i m) as [l|] eqn:Ef; cbn [option_map]; [|eauto].
  apply bind_inv in E. destruct E as (p & Ep & E). apply rget_inv in Ep. destruct l as [|p0 l]; [discriminate|]. injection Ep as ->. cbn [map toSP spPos].
  apply bind_inv in E. destruct E as (nv & -> & E). cbn [bind]. apply bind_inv in E. destruct E as (lv & -> & E). cbn [bind]. apply bind_inv in E. destruct E as (cs & -> & E). cbn [bind].
  injection E as <- _. reflexivity.
Qed.

Definition asPred (valid : vec -> res bool) (p : vec) : bool := match valid p with Ok b => b | _ => false end.

Lemma midDiss_slice valid li segEnd rest : forall w p result r, midDissSlices valid li segEnd w p rest result = Ok r ->
  midSlices (asPred valid) segEnd w (toSP p) (map toSP rest) (map dsPline result) = map dsPline r.
Proof.
  induction rest as [|q rest IH]; intros w p result r E; cbn [midDissSlices midSlices map] in *; [now injection E as <-|].
  apply bind_inv in E. destruct E as (keep & Ek & E). apply IH in E. rewrite <- E. clear E. cbn [toSP spStart spPos]. f_equal.
  destruct (fuzzyEqual _ _ _); [injection Ek as <-; reflexivity|]. unfold asPred. rewrite Ek. destruct keep; cbn [negb]; [|reflexivity]. now rewrite map_app.
Qed.

Lemma last_map {X Y} (f : X -> Y) l a : last (map f l) (f a) = f (last l a).
Proof. revert a. induction l as [|x l IH]; intros a; [reflexivity|]. cbn [map]. destruct l as [|y l]; [reflexivity|]. exact (IH a). Qed.

Lemma dissOne_slice valid li pl m result k l r : dissOne valid li pl m result (k, l) = Ok r ->
  sliceOne pl (toTable m) (asPred valid) (map dsPline result) (k, map toSP l) = Ok (map dsPline r).
Proof.
  unfold dissOne, sliceOne. intros E. apply bind_inv in E. destruct E as (v1 & -> & E). cbn [bind]. apply bind_inv in E. destruct E as (v2 & -> & E). cbn [bind].
  destruct l as [|p0 rest]; [discriminate|]. cbn [map]. apply bind_inv in E. destruct E as (r1 & E1 & E). rewrite last_map.
  assert (Er1 : (if negb (length (toSP p0 :: map toSP rest) =? 1)%nat
     then midSlices (asPred valid) v2 (splitVertex (splitAtPoint v1 v2 (spPos (toSP p0)))) (toSP p0) (map toSP rest) (map dsPline result) else map dsPline result) = map dsPline r1).
  { cbn [length] in *. rewrite map_length. destruct (negb _); [|now injection E1 as <-]. cbn [toSP spPos]. now apply midDiss_slice with (1 := E1). }
  rewrite Er1. clear Er1 E1. cbn [toSP spStart spPos]. apply bind_inv in E. destruct E as ([curr endIdx] & Ec & E). apply dissLoop_slice in Ec. rewrite Ec. cbn [bind].
  destruct (1 <? size curr)%nat; [|now injection E as <-]. apply bind_inv in E. destruct E as (a & -> & E). cbn [bind]. apply bind_inv in E. destruct E as (b & -> & E). cbn [bind].
  apply bind_inv in E. destruct E as (ok & Eok & E). unfold asPred. rewrite Eok. destruct ok; cbn [negb] in E; injection E as <-; [now rewrite map_app|reflexivity].
Qed.

(** *** The vertices of a slice *)
Section Vertices.
Context (pl : polyline) (cs : list (nat * slicePoint)) (m : lookup) (Hm : table cs m).
Definition known (p : vec) : Prop := atCut cs p \/ In p (map pos (vertexes pl)).
Definition allKnown (l : list vertex) : Prop := forall v, In v l -> known (pos v).

Lemma known_app l1 l2 : allKnown l1 -> allKnown l2 -> allKnown (l1 ++ l2).
Proof. intros H1 H2 v Hv. apply in_app_or in Hv. destruct Hv; auto. Qed.
Lemma known_one v : known (pos v) -> allKnown [v].
Proof. intros H w [<-|[]]. exact H. Qed.
Lemma cut_known k c : In (k, c) cs -> known (spPos c).
Proof. intros H. left. exists k, c. split; [auto|]. left. now left. Qed.

Lemma add_known s v : allKnown (vertexes s) -> known (pos v) -> allKnown (vertexes (addOrReplaceIfSamePos s v)).
Proof.
  intros Hs Hv. destruct (vertexes s) as [|w0 t] eqn:Es.
  - unfold addOrReplaceIfSamePos. rewrite Es. cbn [rev]. unfold addVertex. cbn [vertexes]. rewrite Es. now apply known_one.
  - destruct (addOrReplace_cases s v) as [[E|(l & w & E & _ & E')] _]; [rewrite Es; discriminate| |].
    + rewrite E, Es. apply known_app; [exact Hs|now apply known_one].
    + rewrite E'. rewrite <- Es, E in Hs. intros x Hx. apply in_app_or in Hx. destruct Hx as [Hx|[<-|[]]]; [apply Hs, in_or_app; now left|]. cbn [pos]. apply Hs, in_or_app. right. now left.
Qed.

Lemma sliceLoop_known : forall fuel s i s', sliceLoop fuel pl m s i = Ok s' -> allKnown (vertexes s) -> allKnown (vertexes s').
Proof.
  destruct Hm as (Nm & Sm & _). induction fuel as [|fuel IH]; intros s i s' E Hs; [discriminate|]. cbn [sliceLoop] in E. apply bind_inv in E. destruct E as (v & Ev & E).
  assert (Kv : known (pos v)). { right. unfold vget in Ev. apply rget_inv, nth_error_In in Ev. now apply in_map. }
  pose proof (add_known s v Hs Kv) as H1. set (s1 := addOrReplaceIfSamePos s v) in *. clearbody s1. destruct (mfind i m) as [l|] eqn:Ef; [|eauto].
  apply mfind_spec in Ef; [|auto]. apply Sm in Ef. destruct Ef as [_ Hl]. destruct l as [|p l]; [discriminate|].
  apply bind_inv in E. destruct E as (nv & _ & E). apply bind_inv in E. destruct E as (lv & Elv & E). apply bind_inv in E. destruct E as (s2 & Es2 & E). injection E as <-.
  assert (Kp : known (spPos p)) by (apply (cut_known i), Hl; now left).
  apply add_known; [|exact Kp]. unfold setLastVertex in Es2. unfold lastVertex in Elv. destruct (rev (vertexes s1)) as [|w t] eqn:Er; [discriminate|]. injection Elv as ->. injection Es2 as <-. cbn [vertexes].
  apply (f_equal (@rev _)) in Er. rewrite rev_involutive in Er. cbn [rev] in Er. rewrite Er in H1.
  apply known_app; [intros x Hx; apply H1, in_or_app; now left|]. apply known_one. destruct (updatedStart_pos lv nv (spPos p)) as [->| ->]; [apply H1, in_or_app; right; now left|exact Kp].
Qed.

Lemma split_known v1 v2 k c : In (k, c) cs -> known (pos (splitVertex (splitAtPoint v1 v2 (spPos c)))).
Proof. intros H. left. exists k, c. split; [auto|]. left. apply split_pos. Qed.

Lemma midSlices_known (Q : polyline -> Prop) pred segEnd k rest : (forall s, allKnown (vertexes s) -> Q s) -> forall w p result, known (pos w) -> (forall c, In c rest -> In (k, c) cs) ->
  (forall s, In s result -> Q s) -> forall s, In s (midSlices pred segEnd w p rest result) -> Q s.
Proof.
  intros HQ. induction rest as [|q rest IH]; intros w p result Hw Hr Hres; cbn [midSlices]; [auto|].
  assert (Iq : In (k, q) cs) by (apply Hr; now left). apply IH; [now apply (split_known _ _ k)|intros; apply Hr; now right|].
  destruct (spStart p); [auto|]. destruct (fuzzyEqual _ _ _); [auto|]. destruct (negb _); [auto|]. intros s Hs. apply in_app_or in Hs. destruct Hs as [Hs|[<-|[]]]; [auto|].
  apply HQ. cbn [vertexes]. apply (known_app [_] [_]); apply known_one; [|now apply (split_known _ _ k)]. destruct (updatedStart_pos w segEnd (spPos q)) as [->| ->]; [auto|now apply (cut_known k)].
Qed.

Lemma sliceOne_known (Q : polyline -> Prop) pred result k l r : (forall s, allKnown (vertexes s) -> Q s) -> sliceOne pl m pred result (k, l) = Ok r -> In (k, l) m ->
  (forall s, In s result -> Q s) -> forall s, In s r -> Q s.
Proof.
  intros HQ E Hin Hres. destruct Hm as (_ & Sm & _). apply Sm in Hin. destruct Hin as [_ Hl]. unfold sliceOne in E. apply bind_inv in E. destruct E as (v1 & Ev1 & E). apply bind_inv in E. destruct E as (v2 & Ev2 & E).
  destruct l as [|p0 rest]; [discriminate|]. match type of E with (if _ then Ok ?a else _) = _ => set (r1 := a) in * end.
  assert (H1 : forall s, In s r1 -> Q s).
  { unfold r1. destruct (negb _); [|auto]. apply (midSlices_known Q _ _ k); [auto|apply (split_known _ _ k), Hl; now left|intros; apply Hl; now right|auto]. }
  clearbody r1. assert (Hlast : In (last rest p0) (p0 :: rest)).
  { destruct rest as [|y rest]; [now left|]. right. destruct (exists_last (l := y :: rest) ltac:(discriminate)) as (l' & x & ->). rewrite last_last. apply in_or_app. right. now left. }
  destruct (spStart _); [injection E as <-; auto|]. apply bind_inv in E. destruct E as (cur & Ecur & E).
  apply sliceLoop_known in Ecur; [|cbn [vertexes]; apply known_one, (split_known _ _ k), Hl, Hlast].
  destruct (1 <? size cur)%nat; [|injection E as <-; auto]. apply bind_inv in E. destruct E as (a & _ & E). apply bind_inv in E. destruct E as (b & _ & E).
  destruct (pred _); injection E as <-; [|auto]. intros s Hs. apply in_app_or in Hs. destruct Hs as [Hs|[<-|[]]]; auto.
Qed.
End Vertices.

(** *** The dissection points *)
Definition goodTable (P : nat -> vec -> Prop) (m : list (nat * list dissPoint)) : Prop :=
  NoDup (map fst m) /\ forall k l, In (k, l) m -> l <> [] /\ forall p, In p l -> P k (dpos p).

Lemma push_good (P : nat -> vec -> Prop) m k (p : dissPoint) : P k (dpos p) -> goodTable P m -> goodTable P (mpush k p m).
Proof.
  intros Hp [N H]. destruct (mpush_spec m k p N) as [N' S]. split; [exact N'|]. intros k' l Hl. apply S in Hl. destruct Hl as [[_ Hl]|[-> [(l0 & Hl & ->)|[_ ->]]]]; [auto| |].
  - split; [intros E; apply app_eq_nil in E; destruct E; discriminate|]. intros q Hq. apply in_app_or in Hq. destruct Hq as [Hq|[<-|[]]]; [|auto]. now apply (H k l0).
  - split; [discriminate|]. intros q [<-|[]]. exact Hp.
Qed.

Lemma sort_good pl P m m' : sortDiss pl m = Ok m' -> goodTable P m -> goodTable P m' /\ forall k l, In (k, l) m' -> (k < length (vertexes pl))%nat.
Proof.
  intros E [N H]. assert (G : map fst m' = map fst m /\ forall k l, In (k, l) m' -> (k < length (vertexes pl))%nat /\ exists l0, In (k, l0) m /\ Permutation l l0).
  { clear N H. revert m' E. unfold sortDiss. induction m as [|[k0 l0] m IH]; intros m' E; cbn [mmap] in E; [injection E as <-; split; [auto|intros k l []]|].
    apply bind_inv in E. destruct E as ([k1 l1] & E1 & E). apply bind_inv in E. destruct E as (m1 & Em & E). injection E as <-. apply bind_inv in E1. destruct E1 as (v & Ev & E1). injection E1 as <- <-.
    destruct (IH m1 Em) as [IH1 IH2]. cbn [map fst]. split; [now rewrite IH1|]. intros k l [E|Hin].
    - injection E as <- <-. split; [unfold vget in Ev; apply rget_inv in Ev; apply nth_error_Some; rewrite Ev; discriminate|]. exists l0. split; [now left|apply sort_perm].
    - destruct (IH2 k l Hin) as (A & l2 & B & C). split; [auto|]. exists l2. split; [now right|auto]. }
  destruct G as [G1 G2]. split; [|intros k l Hl; apply (G2 k l Hl)]. split; [now rewrite G1|]. intros k l Hl. destruct (G2 k l Hl) as (_ & l0 & H0 & Pm). destruct (H k l0 H0) as [Hne HP]. split.
  - intros ->. apply Permutation_nil in Pm. contradiction.
  - intros p Hp. apply HP. eapply Permutation_in; eauto.
Qed.

(** the cuts listed in a table *)
Definition cutsOf (m : list (nat * list dissPoint)) : list (nat * slicePoint) := flat_map (fun kl => map (fun p => (fst kl, toSP p)) (snd kl)) m.
Lemma cutsOf_In m k c : In (k, c) (cutsOf m) <-> exists l p, In (k, l) m /\ In p l /\ c = toSP p.
Proof.
  unfold cutsOf. rewrite in_flat_map. split.
  - intros ([k0 l] & H1 & H2). cbn [fst snd] in H2. apply in_map_iff in H2. destruct H2 as (p & E & Hp). injection E as -> <-. eauto.
  - intros (l & p & H1 & H2 & ->). exists (k, l). split; [auto|]. cbn [fst snd]. apply in_map_iff. eauto.
Qed.

Lemma toTable_table P m : goodTable P m -> table (cutsOf m) (toTable m).
Proof.
  intros [N H]. assert (E : map fst (toTable m) = map fst m) by (unfold toTable; rewrite map_map; reflexivity). split; [now rewrite E|]. split.
  - intros k l Hl. unfold toTable in Hl. apply in_map_iff in Hl. destruct Hl as ([k0 l0] & E0 & Hl). cbn [fst snd] in E0. injection E0 as -> <-. destruct (H k l0 Hl) as [Hne _]. split; [now destruct l0|].
    intros c Hc. apply in_map_iff in Hc. destruct Hc as (p & <- & Hp). apply cutsOf_In. eauto.
  - intros k c Hc. apply cutsOf_In in Hc. destruct Hc as (l & p & Hl & _). exists (map toSP l). unfold toTable. apply in_map_iff. exists (k, l). auto.
Qed.

(** *** All slices of one loop *)
Section Loop.
Context (input : loopSet) (d : T).

Definition goodSet (o : islandsObj) (s : slicePointSet) : Prop :=
  exists l1 l2, getOffsetLoop o (loopIndex1 s) = Ok l1 /\ getOffsetLoop o (loopIndex2 s) = Ok l2 /\ forall p, In p (slicePoints s) -> reported l1 l2 (lspIntr p).
Definition goodSets (o : islandsObj) : Prop :=
  (forall s, In s (o_sets o) -> goodSet o s) /\
  (forall i li n, nth_error (o_lookup o) i = Some li -> In n li -> exists s, nth_error (o_sets o) n = Some s /\ (loopIndex1 s = i \/ loopIndex2 s = i)).
Definition goodLoops (o : islandsObj) : Prop :=
  forall i l, getOffsetLoop o i = Ok l -> isOffsetOf input d l /\ createApproxSpatialIndex (lpoly l) = Ok (lindex l).

Lemma push_fold (P : nat -> vec -> Prop) (f : loopSlicePoint -> nat) (g : loopSlicePoint -> dissPoint) pts : (forall p, In p pts -> P (f p) (dpos (g p))) ->
  forall m, goodTable P m -> goodTable P (fold_left (fun m p => mpush (f p) (g p) m) pts m).
Proof. induction pts as [|p pts IH]; intros Hp m Hm; cbn [fold_left]; [auto|]. apply IH; [intros; apply Hp; now right|]. apply push_good; [apply Hp; now left|auto]. Qed.

Lemma fill_good o i l m : goodSets o -> goodLoops o -> getOffsetLoop o i = Ok l -> fillDiss o i = Ok m -> goodTable (meetsAt input d l) m.
Proof.
  intros [Gs Gl] GL El E. unfold fillDiss in E. apply bind_inv in E. destruct E as (idxs & Ei & E). apply rget_inv in Ei.
  refine (mfold_inv _ (goodTable (meetsAt input d l)) _ _ _ _ E _).
  2:{ split; [constructor|intros k l0 []]. }
  intros m0 n m1 Hn Em Hm. apply bind_inv in Em. destruct Em as (s & Es & Em). apply rget_inv in Es.
  destruct (Gl i idxs n Ei Hn) as (s' & Es' & Hi). rewrite Es in Es'. injection Es' as <-.
  destruct (Gs s (nth_error_In _ _ Es)) as (l1 & l2 & E1 & E2 & Hrep).
  destruct (Nat.eqb_spec i (loopIndex1 s)) as [->|Hne]; injection Em as <-.
  - rewrite El in E1. injection E1 as <-. apply (push_fold _ (fun p => sIndex1 (lspIntr p)) (fun p => mkDP (loopIndex2 s) (ipos (lspIntr p)))); [|exact Hm].
    intros p Hp. cbn [dpos]. exists l2, (lspIntr p). split; [apply (GL _ _ E2)|]. split; [auto|]. left. auto.
  - destruct Hi as [Hi|Hi]; [congruence|]. subst i. rewrite El in E2. injection E2 as <-.
    apply (push_fold _ (fun p => sIndex2 (lspIntr p)) (fun p => mkDP (loopIndex1 s) (ipos (lspIntr p)))); [|exact Hm].
    intros p Hp. cbn [dpos]. exists l1, (lspIntr p). split; [apply (GL _ _ E1)|]. split; [auto|]. right. auto.
Qed.

Lemma mfold_app_inv {A} (f : list A -> nat * list dissPoint -> res (list A)) (Q : A -> Prop) l : (forall s a s', In a l -> f s a = Ok s' -> exists new, s' = s ++ new /\ List.Forall Q new) ->
  forall s s', mfold f l s = Ok s' -> exists new, s' = s ++ new /\ List.Forall Q new.
Proof.
  induction l as [|a l IH]; intros H s s' E; cbn [mfold] in E; [injection E as <-; exists []; rewrite app_nil_r; auto|]. apply bind_inv in E. destruct E as (s1 & E1 & E).
  destruct (H s a s1 (or_introl eq_refl) E1) as (n1 & -> & H1). destruct (IH (fun s a s' Ha => H s a s' (or_intror Ha)) _ _ E) as (n2 & -> & H2). exists (n1 ++ n2). rewrite app_assoc. split; [auto|]. now apply Forall_app.
Qed.

Lemma loop_slices o i res o' res' : goodSets o -> goodLoops o -> createSlicesFromLoop o input i d res = Ok (o', res') ->
  (forall s, In s res -> pieceOfLoop input d (dsPline s)) -> forall s, In s res' -> pieceOfLoop input d (dsPline s).
Proof.
  intros GS GL E Hres. unfold createSlicesFromLoop in E. apply bind_inv in E. destruct E as (l & El & E). apply bind_inv in E. destruct E as (m0 & E0 & E). apply bind_inv in E. destruct E as (m & Em & E).
  apply bind_inv in E. destruct E as (res1 & Ef & E). injection E as _ <-. pose proof (fill_good o i l m0 GS GL El E0) as G0. destruct (sort_good _ _ _ _ Em G0) as [Gm Hk].
  destruct (GL i l El) as [Hoff Hix]. pose proof (toTable_table _ _ Gm) as Tm. set (valid := fun pt => pointOnOffsetValid input (parentLoopIndex l) pt d) in *.
  assert (Hk' : forall k c, In (k, c) (cutsOf m) -> (k < length (vertexes (lpoly l)))%nat) by (intros k c Hc; apply cutsOf_In in Hc; destruct Hc as (l0 & p & Hl0 & _); eauto).
  assert (Hcut : forall p, atCut (cutsOf m) p -> nearMeeting input d l p).
  { intros p (k & c & Hc & Hn). apply cutsOf_In in Hc. destruct Hc as (l0 & q & Hl0 & Hq & ->). exists k, (dpos q). split; [|exact Hn]. now apply (proj2 Gm k l0). }
  refine (mfold_inv _ (fun r => forall s, In s r -> pieceOfLoop input d (dsPline s)) _ _ _ _ Ef Hres). clear res res1 Ef Hres. intros r [k ps] r' Hin E Hr.
  apply (Permutation_in _ (order_perm _ m)) in Hin. assert (Hin' : In (k, map toSP ps) (toTable m)) by (unfold toTable; apply in_map_iff; exists (k, ps); auto).
  pose proof (dissOne_slice _ _ _ _ _ _ _ _ E) as E'.
  destruct (sliceOne_ok (lpoly l) (toTable m) (cutsOf m) (asPred valid) k (map toSP ps) (map dsPline r) Tm Hk' Hin') as (new & Enew & Hnew & _).
  pose proof (sliceOne_known (lpoly l) (cutsOf m) (toTable m) Tm (fun s => In s (map dsPline r) \/ allKnown (lpoly l) (cutsOf m) (vertexes s)) _ _ _ _ _ (fun s H => or_intror H) E' Hin' (fun s H => or_introl H)) as K.
  rewrite E' in Enew. injection Enew as Er'. intros s Hs. apply (in_map dsPline) in Hs. specialize (K _ Hs). destruct K as [K|K].
  { apply in_map_iff in K. destruct K as (s0 & <- & Hs0). auto. }
  rewrite Er' in Hs. apply in_app_or in Hs. destruct Hs as [Hs|Hs].
  { apply in_map_iff in Hs. destruct Hs as (s0 & <- & Hs0). auto. }
  rewrite List.Forall_forall in Hnew. destruct (Hnew _ Hs) as (Hc & Hh & Hl & vs & a & b & Ev & Hp). split; [exact Hc|]. exists l. split; [exact Hoff|]. split; [exact Hix|].
  split; [auto|]. split; [auto|]. split.
  - intros v Hv. destruct (K v Hv) as [Hc'|Hv']; [left; auto|now right].
  - exists vs, a, b. split; [exact Ev|]. unfold asPred, valid in Hp. destruct (pointOnOffsetValid _ _ _ _) as [ok| |] eqn:Ok_; try discriminate. subst ok. now apply valid_all.
Qed.
End Loop.

(** *** Collecting the slice points *)
Lemma getLoop_eq o1 o2 i : o_ccw o1 = o_ccw o2 -> o_cw o1 = o_cw o2 -> getOffsetLoop o1 i = getOffsetLoop o2 i.
Proof. intros H1 H2. unfold getOffsetLoop. now rewrite H1, H2. Qed.

Lemma lookupPush_inv lk i x lk' : lookupPush lk i x = Ok lk' -> forall j lj, nth_error lk' j = Some lj -> 
  (exists lj0, nth_error lk j = Some lj0 /\ (lj = lj0 \/ (j = i /\ lj = lj0 ++ [x]))).
Proof.
  unfold lookupPush. intros E. apply bind_inv in E. destruct E as (li & Ei & E). apply rget_inv in Ei. apply rset_inv in E. destruct E as [Hi ->]. intros j lj Hj.
  destruct (Nat.eq_dec i j) as [<-|Hne].
  - rewrite nth_error_upd_eq in Hj by auto. injection Hj as <-. exists li. auto.
  - rewrite nth_error_upd_ne in Hj by auto. eauto.
Qed.

Lemma collect_sets o o' : createSlicePoints o = Ok o' -> goodSets o'.
Proof.
  intros E. pose proof (slicePoints_same _ _ E) as [Ec Ew]. unfold createSlicePoints in E. apply bind_inv in E. destruct E as (ix & _ & E). apply bind_inv in E. destruct E as ([[v sets] lk] & E & E').
  injection E' as <-. cbn [o_ccw o_cw] in Ec, Ew.
  set (Q := fun st : list (nat * nat) * list slicePointSet * list (list nat) => let '(_, sets, lk) := st in
    (forall s, In s sets -> goodSet o s) /\ (forall i li n, nth_error lk i = Some li -> In n li -> exists s, nth_error sets n = Some s /\ (loopIndex1 s = i \/ loopIndex2 s = i))).
  assert (HQ : Q (v, sets, lk)).
  { refine (mfold_inv _ Q _ _ _ _ E _).
    2:{ split; [intros s []|]. intros i li n Hi Hn. apply nth_error_In, repeat_spec in Hi. subst li. destruct Hn. }
    clear E v sets lk. intros st i st' _ E Hst. apply bind_inv in E. destruct E as (l1 & El1 & E). apply bind_inv in E. destruct E as (q & _ & E).
    refine (mfold_inv _ Q _ _ _ _ E Hst). clear E st st' Hst. intros [[v sets] lk] j st' _ E [H1 H2]. unfold slicePointsPair in E.
    destruct (i =? j)%nat; [injection E as <-; split; auto|]. destruct (pairMem j i v); [injection E as <-; split; auto|].
    apply bind_inv in E. destruct E as (l2 & El2 & E). apply bind_inv in E. destruct E as ([intrs coinc] & Ef & E). destruct (_ || _); [|injection E as <-; split; auto].
    apply bind_inv in E. destruct E as (pts & Ep & E). apply bind_inv in E. destruct E as (lk1 & E1 & E). apply bind_inv in E. destruct E as (lk2 & E2 & E). injection E as <-.
    rewrite app_length in E1, E2. cbn [length] in E1, E2. replace (length sets + 1 - 1)%nat with (length sets) in E1, E2 by lia.
    assert (Hpts : forall p, In p pts -> reported l1 l2 (lspIntr p)).
    { intros p Hp. exists intrs, coinc. split; [exact Ef|]. destruct (negb (length coinc =? 0)%nat).
      - apply bind_inv in Ep. destruct Ep as (cs & Ecs & Ep). injection Ep as <-. apply in_app_or in Hp. destruct Hp as [Hp|Hp].
        + left. apply in_map_iff in Hp. destruct Hp as (x & <- & Hx). exact Hx.
        + right. exists cs. split; [exact Ecs|]. apply in_app_or in Hp. destruct Hp as [Hp|Hp]; apply in_map_iff in Hp; destruct Hp as (x & <- & Hx); auto.
      - injection Ep as <-. left. apply in_map_iff in Hp. destruct Hp as (x & <- & Hx). exact Hx. }
    split.
    - intros s Hs. apply in_app_or in Hs. destruct Hs as [Hs|[<-|[]]]; [auto|]. exists l1, l2. cbn [loopIndex1 loopIndex2 slicePoints]. auto.
    - intros a la n Ha Hn. destruct (lookupPush_inv _ _ _ _ E2 a la Ha) as (la1 & Ha1 & HH2). destruct (lookupPush_inv _ _ _ _ E1 a la1 Ha1) as (la0 & Ha0 & HH1).
      assert (Hcase : In n la0 \/ (n = length sets /\ (a = i \/ a = j))).
      { destruct HH2 as [->|[-> ->]]; [|apply in_app_or in Hn; destruct Hn as [Hn|[<-|[]]]; [|tauto]];
        (destruct HH1 as [->|[-> ->]]; [tauto|]; apply in_app_or in Hn; destruct Hn as [Hn|[<-|[]]]; tauto). }
      destruct Hcase as [Hc|[-> Hc]].
      + destruct (H2 a la0 n Ha0 Hc) as (s & Es & Hs). exists s. split; [|auto]. rewrite nth_error_app1; [auto|]. apply nth_error_Some. rewrite Es. discriminate.
      + exists (mkSPS i j pts). split; [rewrite nth_error_app2, Nat.sub_diag by lia; reflexivity|]. cbn. destruct Hc; auto. }
  destruct HQ as [H1 H2]. split; [|exact H2]. intros s Hs. destruct (H1 s Hs) as (l1 & l2 & A & B & C). exists l1, l2. cbn [o_sets] in *. split; [exact A|]. split; [exact B|exact C].
Qed.

(** ** C41 *)
(** A result is an offset loop that was not cut, or a ring of pieces of offset loops *)
Theorem C41_stitched o input d o' r : compute o input d = Ok (o', r) ->
  forall l, In l (ccwLoops r ++ cwLoops r) ->
    isOffsetOf input (tabs d) l \/ exists ss, ss <> [] /\ (forall s, In s ss -> pieceOfLoop input (tabs d) s) /\ lpoly l = ring ss.
Proof.
  intros E. pose proof (C41_classification _ _ _ _ _ E) as [_ _]. unfold compute in E. apply bind_inv in E. destruct E as (o1 & E1 & E). apply offsets_classified in E1. destruct E1 as [HC HW].
  destruct (_ =? 0)%nat; [injection E as <- <-; intros l []|].
  apply bind_inv in E. destruct E as (o2 & E2 & E). apply index_same in E2. destruct E2 as [E2 E2']. apply bind_inv in E. destruct E as (o3 & E3 & E). pose proof (collect_sets _ _ E3) as GS. apply slicePoints_same in E3. destruct E3 as [E3 E3'].
  apply bind_inv in E. destruct E as ([[o4 r4] s4] & E4 & E).
  assert (GL : forall o, o_ccw o = o_ccw o3 -> o_cw o = o_cw o3 -> goodLoops input (tabs d) o).
  { intros ob H1 H2 i l El. unfold getOffsetLoop in El. rewrite H1, H2, E3, E3', E2, E2' in El. rewrite List.Forall_forall in HC, HW. destruct (_ <? _)%nat; apply rget_inv, nth_error_In in El; [destruct (HC l El) as (A & _ & B)|destruct (HW l El) as (A & _ & B)]; auto. }
  set (Q := fun st : islandsObj * loopSet * list dissSlice => let '(o, r, s) := st in o_ccw o = o_ccw o3 /\ o_cw o = o_cw o3 /\ goodSets o /\
    (forall l, In l (ccwLoops r ++ cwLoops r) -> isOffsetOf input (tabs d) l) /\ forall x, In x s -> pieceOfLoop input (tabs d) (dsPline x)).
  assert (HQ : Q (o4, r4, s4)).
  { refine (mfold_inv _ Q _ _ _ _ E4 _).
    2:{ unfold Q. split; [reflexivity|]. split; [reflexivity|]. split; [exact GS|]. split; [intros l Hl; destruct Hl|intros x Hx; destruct Hx]. }
    clear E4 E. intros [[ob rb] sb] i [[oc rc] sc] _ E (H1 & H2 & H3 & H4 & H5). unfold processLoop in E. apply bind_inv in E. destruct E as (lk & _ & E). destruct (_ =? 0)%nat.
    - apply bind_inv in E. destruct E as (l & El & E). apply bind_inv in E. destruct E as (v0 & _ & E). apply bind_inv in E. destruct E as (ok & _ & E). destruct (GL ob H1 H2 i l El) as [Hl _].
      destruct (negb ok); [injection E as <- <- <-; unfold Q; auto|]. destruct (_ <? _)%nat; injection E as <- <- <-; unfold Q; split; [exact H1| |exact H1|]; split; [exact H2| |exact H2|]; split; [exact H3| |exact H3|]; (split; [|exact H5]); cbn [ccwLoops cwLoops];
        intros l' Hl'; repeat (apply in_app_or in Hl'; destruct Hl' as [Hl'|Hl']); try (apply H4; apply in_or_app; auto; fail); destruct Hl' as [<-|[]]; exact Hl.
    - apply bind_inv in E. destruct E as ([od sd] & Es & E). injection E as <- <- <-. pose proof (slices_same _ _ _ _ _ _ _ Es) as [A B]. unfold Q. split; [congruence|]. split; [congruence|].
      split; [|split; [exact H4|]].
      + unfold createSlicesFromLoop in Es. do 4 (apply bind_inv in Es; destruct Es as (? & _ & Es)). injection Es as <- _. exact H3.
      + eapply loop_slices; [exact H3|exact (GL ob H1 H2)|exact Es|exact H5]. }
  destruct HQ as (_ & _ & _ & HQ1 & HQ2). clear E4. apply bind_inv in E. destruct E as (st & Est & E). apply bind_inv in E. destruct E as (r5 & E5 & E). injection E as <- <-.
  assert (Hst : forall p, In p st -> exists ss, ss <> [] /\ (forall s, In s ss -> pieceOfLoop input (tabs d) s) /\ p = ring ss).
  { assert (Hne : forall s, In s (map dsPline s4) -> vertexes s <> []).
    { intros s Hs. apply in_map_iff in Hs. destruct Hs as (x & <- & Hx). destruct (HQ2 x Hx) as (_ & l & _ & _ & _ & _ & _ & vs & a & b & -> & _). intros F. apply app_eq_nil in F. destruct F; discriminate. }
    intros p Hp. destruct (stitch_ring _ _ _ _ Hne Est p Hp) as (ss & A & B & ->).
    exists ss. split; [auto|]. split; [|auto]. intros s Hs. apply B in Hs. apply in_map_iff in Hs. destruct Hs as (x & <- & Hx). auto. }
  refine (mfold_inv _ (fun r => forall l, In l (ccwLoops r ++ cwLoops r) -> isOffsetOf input (tabs d) l \/ exists ss, ss <> [] /\ (forall s, In s ss -> pieceOfLoop input (tabs d) s) /\ lpoly l = ring ss) _ _ _ _ E5 _).
  2:{ intros l Hl. left. auto. }
  intros ra p rb Hp Er Hr. unfold addStitched in Er. destruct (_ <? _)%t; [injection Er as <-; auto|]. apply bind_inv in Er. destruct Er as (ix & _ & Er).
  assert (Hnew : exists ss, ss <> [] /\ (forall s, In s ss -> pieceOfLoop input (tabs d) s) /\ lpoly (mkLoop 0 p ix) = ring ss) by exact (Hst p Hp).
  destruct (_ <? _)%t; injection Er as <-; cbn [ccwLoops cwLoops]; intros l Hl; repeat (apply in_app_or in Hl; destruct Hl as [Hl|Hl]);
    try (apply Hr; apply in_or_app; auto; fail); destruct Hl as [<-|[]]; right; exact Hnew.
Qed.
End Generic.

(** ** Distances (exact reals) *)
From Verif Require Import RGeom Spec PropsMath PropsPlineIntr PropsPolyline PropsExtents PropsPlineIndex PropsRegion PropsOffset.
Local Open Scope R_scope.

(** Every piece in a stitched result has a point (the midpoint of its last segment) at distance at least |delta| - 2e-4 from every input loop but the
    parent of the offset loop it was cut from. *)
Theorem C41_pieces_far {SL : StdLib} {SLaws : StdLaws SL} (o : islandsObj) input d o' r : 1 / 10000 <= Rabs d ->
  (forall l, In l (ccwLoops input ++ cwLoops input) -> wellMade l) -> compute o input d = Ok (o', r) ->
  forall l, In l (ccwLoops r ++ cwLoops r) -> isOffsetOf input (Rabs d) l \/
    exists ss, ss <> [] /\ lpoly l = ring ss /\
      forall s, In s ss -> exists l0 vs a b, isOffsetOf input (Rabs d) l0 /\ vertexes s = vs ++ [a; b] /\
        forall i l' q, inputLoop input i l' -> i <> parentLoopIndex l0 -> onPath (lpoly l') q -> Rabs d - 2 / 10000 < dist (segMidpoint a b) q.
Proof.
  intros Hd Hin E l Hl. destruct (C41_stitched _ _ _ _ _ E l Hl) as [H|(ss & Hne & Hss & El)]; [left; exact H|]. right. exists ss. split; [exact Hne|]. split; [exact El|].
  intros s Hs. destruct (Hss s Hs) as (_ & l0 & Hoff & _ & _ & _ & _ & vs & a & b & Ev & Hf). exists l0, vs, a, b. split; [exact Hoff|]. split; [exact Ev|].
  intros i l' q Hi Hne' Hq. specialize (Hf i l' Hi Hne'). apply nth_error_In in Hi. destruct (Hin l' Hi) as (Eix & Hix & Hok & Hsm).
  rcbn. assert (Ed : Rabs (Rabs d) = Rabs d) by apply Rabs_Rabsolu.
  destruct (C37_offset_distance (lpoly l') (segMidpoint a b) (Rabs d) Hix Hok Hsm ltac:(rewrite Ed; lra)) as (ix & ok & Eix' & Eb & Hacc & _). rewrite Eix in Eix'. injection Eix' as <-.
  assert (ok = true). { assert (Ok ok = Ok true) by (rewrite <- Eb; exact Hf). congruence. }
  destruct (Hacc H) as [H3 _]. specialize (H3 q Hq). rewrite Ed in H3. lra.
Qed.
