(** * C61: boolean operations on polylines that touch, cross or overlap in any way: what the results are made of *)
From Coq Require Import ZArith Reals Lra Lia List Bool Arith Permutation Sorted.
From Verif Require Import Base Num MathUtils PlineSegment SpatialIndex PropsIndex Polyline Intersects Combine StdLaws RGeom Spec PropsPolyline PropsPlineIndex PropsFindIntr PropsCoincident PropsSlices PropsStitch PropsCombine PropsCoincidentRuns.
Import ListNotations.
Open Scope R_scope.

Section Spec.
Context {SL : StdLib}.

(** ** Specification *)
(** the overlaps found between the two polylines, joined into runs (C32_exact) *)
Definition joinedRuns (A : polyline) (coincs : list cIntr) (runs : list (list cIntr)) : Prop :=
  exists sorted raw, Permutation sorted (map (inOrder A) coincs) /\ StronglySorted (notAfter A) sorted /\ concat raw = sorted /\
    List.Forall (chain (linked A)) raw /\ chain (separate A) raw /\
    ((runs = raw /\ (length raw = 1%nat \/ closesRing A (last raw []) (hd [] raw) = false)) \/
     exists first mid lst, raw = first :: mid ++ [lst] /\ closesRing A lst first = true /\ runs = mid ++ [lst ++ first]).

(** where A / B is cut: at every intersect and at both ends of every run; the flag says that the polyline enters the overlap there *)
Definition cutsOfA (A B : polyline) (intrs : list pIntr) (runs : list (list cIntr)) : list (nat * slicePoint) :=
  map (fun x => (sIndex1 x, mkSP (ipos x) false)) intrs ++
  map (fun r => (sIndex1 (startOf A B r), mkSP (ipos (startOf A B r)) true)) runs ++
  map (fun r => (sIndex1 (endOf B r), mkSP (ipos (endOf B r)) false)) runs.
Definition cutsOfB (A B : polyline) (intrs : list pIntr) (runs : list (list cIntr)) : list (nat * slicePoint) :=
  map (fun x => (sIndex2 x, mkSP (ipos x) false)) intrs ++
  flat_map (fun r => [(sIndex2 (startOf A B r), mkSP (ipos (startOf A B r)) (negb (opposes A B r))); (sIndex2 (endOf B r), mkSP (ipos (endOf B r)) (opposes A B r))]) runs.

(** the polylines are the same closed curve: there is one overlap, and it ends where it starts *)
Definition sameCurve (A B : polyline) (runs : list (list cIntr)) : Prop :=
  exists run, runs = [run] /\ fuzzyEqual (ipos (startOf A B run)) (ipos (endOf B run)) realPrecision = true.

(** [inOf pl p]: the winding number test says that [p] is in [pl] *)
Definition inOf (pl : polyline) (p : vec) : bool := negb (getWindingNumber pl p =? 0)%Z.
Definition sideOf (out : bool) (pl : polyline) (p : vec) : bool := if out then negb (inOf pl p) else inOf pl p.
Definition clockwise (pl : polyline) : bool := Rltb (getArea pl) 0.

(** the passes of an operation: whether the parts of A outside of B are kept (else inside), whether the parts of B outside of A are kept, whether B runs
    against A *)
Definition passesOf (mode : combineMode) : list (bool * bool * bool) :=
  match mode with Union => [(true, true, false)] | Exclude => [(true, false, true)] | Intersect => [(false, false, false)] | XOR => [(true, false, true); (false, true, true)] end.
Definition turnIf (b : bool) (pl : polyline) : polyline := if b then invertDirection pl else pl.
Definition selectorOf (mode : combineMode) (nA nB nC : nat) : nat -> list nat -> res (option nat) :=
  match mode with
  | Union | Intersect => unionAndIntersectSelector (nA + nB)
  | Exclude | XOR => excludeAndXORSelector nA (nA + nB) (nA + nB + nC)
  end.

(** [parts] are the parts of [pl] cut at [cs] whose test point is accepted *)
Definition cutParts (pl : polyline) (cs : list (nat * slicePoint)) (pred : vec -> bool) (parts : list polyline) : Prop :=
  List.Forall (goodSlice cs pred) parts /\
  (sep pl cs -> exists sl, parts = map (mkPline false) sl /\ Permutation sl (flat_map (fun k => filter (accepted pred) (stretches pl cs k)) (seq 0 (length (vertexes pl))))).

(** one pass: the parts of A, the parts of B, the overlaps of A and the overlaps of B, B turned if it does not run as wanted, stitched together *)
Definition stitchedPass (A B : polyline) (mode : combineMode) (intrs : list pIntr) (runs : list (list cIntr)) (pass : bool * bool * bool) (st : list polyline) : Prop :=
  let '(outA, outB, against) := pass in
  let turn := xorb against (xorb (clockwise A) (clockwise B)) in
  exists partsA partsB,
    cutParts A (cutsOfA A B intrs runs) (sideOf outA B) partsA /\ cutParts B (cutsOfB A B intrs runs) (sideOf outB A) partsB /\
    stitchOrderedSlices (partsA ++ map (turnIf turn) partsB ++ map (sliceOf A) runs ++ map (fun r => turnIf turn (turnIf (opposes A B r) (sliceOf A r))) runs)
      (selectorOf mode (length partsA) (length partsB) (length runs)) sliceJoinThreshold = Ok st.

Definition assembled (A B : polyline) (mode : combineMode) (intrs : list pIntr) (runs : list (list cIntr)) (r : combineResult) : Prop :=
  exists sts, Forall2 (stitchedPass A B mode intrs runs) (passesOf mode) sts /\
    match mode with
    | Union => remaining r = filter (fun p => Bool.eqb (clockwise p) (clockwise A)) (concat sts) /\ subtracted r = filter (fun p => negb (Bool.eqb (clockwise p) (clockwise A))) (concat sts)
    | _ => remaining r = concat sts /\ subtracted r = []
    end.

Definition byContainment (A B : polyline) (mode : combineMode) : combineResult :=
  if inOf B (pos (at_ A 0)) then match mode with Union => mkComb [B] [] | Exclude => mkComb [] [] | Intersect => mkComb [A] [] | XOR => mkComb [B] [A] end
  else if inOf A (pos (at_ B 0)) then match mode with Union => mkComb [A] [] | Exclude => mkComb [A] [B] | Intersect => mkComb [B] [] | XOR => mkComb [A] [B] end
  else match mode with Union => mkComb [A; B] [] | Exclude => mkComb [A] [] | Intersect => mkComb [] [] | XOR => mkComb [A; B] [] end.
Definition ofSameCurve (A : polyline) (mode : combineMode) : combineResult :=
  match mode with Union | Intersect => mkComb [A] [] | Exclude | XOR => mkComb [] [] end.
End Spec.

Section Proof.
Context {SL : StdLib} {SLaws : StdLaws SL}.

Lemma neg_R' pl : (getArea pl <? t0)%t = clockwise pl.
Proof. unfold clockwise. cbn. unfold t0. cbn. f_equal. replace (0 / 1) with 0 by field. reflexivity. Qed.

Definition infoOf (A B : polyline) (intrs : list pIntr) (runs : list (list cIntr)) : combineInfo :=
  let r := result A B runs in mkInfo (csSlices r) intrs (csStarts r) (csEnds r) (csOpposing r) (getArea A <? t0)%t (getArea B <? t0)%t.

Lemma cuts_A A B intrs runs : cuts (infoOf A B intrs runs) false = cutsOfA A B intrs runs.
Proof. unfold cuts, cutsFirst, cutsOfA, infoOf, result. cbn [ciIntrs ciStarts ciEnds csStarts csEnds]. now rewrite !map_map. Qed.
Lemma cuts_B A B intrs runs : cuts (infoOf A B intrs runs) true = cutsOfB A B intrs runs.
Proof.
  unfold cuts, cutsSecond, cutsOfB, infoOf, result. cbn [ciIntrs ciStarts ciEnds ciOpposing csStarts csEnds csOpposing]. f_equal.
  induction runs as [|r runs IH]; [reflexivity|]. cbn [map combine flat_map]. now rewrite IH.
Qed.

Lemma invertOpposing_map A B runs : invertOpposing (map (sliceOf A) runs) (map (opposes A B) runs) = Ok (map (fun r => turnIf (opposes A B r) (sliceOf A r)) runs).
Proof. induction runs as [|r runs IH]; [reflexivity|]. cbn [map invertOpposing]. rewrite IH. cbn [bind]. reflexivity. Qed.

Lemma parts_ok pl ci second pred : okCuts ci second (length (vertexes pl)) -> exists parts, sliceAtIntersects pl ci second pred [] = Ok parts /\ cutParts pl (cuts ci second) pred parts.
Proof.
  intros H. destruct (C33_safe pl ci second pred [] H) as (s & E & G & _). exists s. split; [exact E|]. split; [exact G|]. intros Hs.
  destruct (C33_exact pl ci second pred [] H Hs) as (sl & E' & P). rewrite E in E'. injection E' as E'. cbn [app] in E'. eauto.
Qed.

Lemma collected_pass A B intrs runs mode outA outB against cs (predA predB : vec -> bool) : okInfo A B (infoOf A B intrs runs) ->
  predA = sideOf outA B -> predB = sideOf outB A ->
  collectSlices A B (infoOf A B intrs runs) predA predB against = Ok cs -> forall st,
  stitchOrderedSlices (slicesRemaining cs) (match mode with Union | Intersect => unionAndIntersectSelector (startOfPlineACoincidentSlicesIdx cs) | _ => excludeAndXORSelector (startOfPlineBSlicesIdx cs) (startOfPlineACoincidentSlicesIdx cs) (startOfPlineBCoincidentSlicesIdx cs) end) sliceJoinThreshold = Ok st ->
  stitchedPass A B mode intrs runs (outA, outB, against) st.
Proof.
  intros (O1 & O2 & _) -> -> E st Est. unfold collectSlices in E.
  destruct (parts_ok A _ false (sideOf outA B) O1) as (pa & Ea & Pa). destruct (parts_ok B _ true (sideOf outB A) O2) as (pb & Eb & Pb).
  rewrite Ea, Eb in E. cbn [bind] in E. change (ciSlices (infoOf A B intrs runs)) with (map (sliceOf A) runs) in E. change (ciOpposing (infoOf A B intrs runs)) with (map (opposes A B) runs) in E. rewrite invertOpposing_map in E. cbn [bind] in E.
  injection E as <-. cbn [slicesRemaining startOfPlineBSlicesIdx startOfPlineACoincidentSlicesIdx startOfPlineBCoincidentSlicesIdx] in Est.
  rewrite cuts_A in Pa. rewrite cuts_B in Pb. exists pa, pb. split; [exact Pa|]. split; [exact Pb|].
  assert (Et : negb (Bool.eqb against (plineOpposingDirections (infoOf A B intrs runs))) = xorb against (xorb (clockwise A) (clockwise B))).
  { unfold plineOpposingDirections, infoOf. cbn [ciPline1IsCW ciPline2IsCW]. rewrite !neg_R'. now destruct against, (clockwise A), (clockwise B). }
  rewrite Et in Est. clear Et. destruct (xorb against (xorb (clockwise A) (clockwise B))); unfold turnIf at 1; unfold turnIf at 1.
  - rewrite !map_length in Est. rewrite map_map in Est. destruct mode; exact Est.
  - rewrite !map_length in Est. rewrite map_id. destruct mode; exact Est.
Qed.

(** ** C61 *)
Theorem C61_contact A B mode : indexable A -> closedPline A -> closedPline B -> (10 * Z.of_nat (length (vertexes A)) * Z.of_nat (length (vertexes B)) <= 2 ^ 24)%Z ->
  exists ix intrs coincs r, createApproxSpatialIndex A = Ok ix /\ findIntersects defaultNodeSize A B ix [] [] = Ok (intrs, coincs) /\ combinePolylines A B mode = Ok r /\
    ((intrs = [] /\ coincs = [] /\ r = byContainment A B mode) \/
     exists runs, (intrs <> [] \/ coincs <> []) /\ ((coincs = [] /\ runs = []) \/ (coincs <> [] /\ joinedRuns A coincs runs)) /\
       ((sameCurve A B runs /\ r = ofSameCurve A mode) \/ (~ sameCurve A B runs /\ assembled A B mode intrs runs r))).
Proof.
  intros HA CA CB Hsz. destruct (C36_returns A B mode HA CA CB Hsz) as (r & Er & _). pose proof (proj2 CB) as HB. pose proof (proj2 CA) as HA2.
  destruct (C30_find_intersects A B HA HB) as (ix & tested & intrs & coincs & Eix & Ef & _).
  destruct (C30_sound A B ix intrs coincs HA HB Eix Ef) as [_ Sc]. pose proof (segCount_le A HA2) as LA. pose proof (segCount_le B HB) as LB.
  exists ix, intrs, coincs, r. split; [exact Eix|]. split; [exact Ef|]. split; [exact Er|].
  assert (HR : exists runs, ((coincs = [] /\ runs = []) \/ (coincs <> [] /\ joinedRuns A coincs runs)) /\ processForCombine defaultNodeSize A B ix = Ok (infoOf A B intrs runs) /\ (coincs <> [] -> runs <> [])).
  { unfold processForCombine. rewrite Ef. cbn [bind]. destruct coincs as [|c0 cs] eqn:Ec.
    - exists []. split; [left; auto|]. split; [reflexivity|]. congruence.
    - rewrite <- Ec in *. assert (Hne : coincs <> []) by (rewrite Ec; discriminate). clear Ec c0 cs.
      destruct (C32_exact coincs A B Hne) as (sorted & raw & q & Eq & H1 & H2 & H3 & H4 & H5 & H6). { intros c Hc. apply Sc in Hc. unfold okIdx. lia. }
      rewrite Eq. cbn [bind]. destruct H6 as [[-> H6]|(f & m & l & H6 & H7 & ->)].
      + exists raw. split; [right; split; [auto|]; exists sorted, raw; auto 8|]. split; [reflexivity|]. intros _ ->. inversion H5.
      + exists (m ++ [l ++ f]). split; [right; split; [auto|]; exists sorted, raw; repeat (split; [auto|]); right; eauto 6|]. split; [reflexivity|]. intros _ E. destruct m; discriminate. }
  destruct HR as (runs & Hruns & Ep & Hne). destruct (process_ok A B HA HB) as (ix' & ci & Eix' & Eci & OI). rewrite Eix in Eix'. injection Eix' as <-. rewrite Ep in Eci. injection Eci as <-.
  unfold combinePolylines in Er. rewrite Eix in Er. cbn [bind] in Er. rewrite Ep in Er. cbn [bind] in Er. rewrite !at_get in Er by lia. cbn [bind] in Er.
  assert (Hcc : completelyCoincident (infoOf A B intrs runs) = true <-> sameCurve A B runs).
  { unfold completelyCoincident, infoOf, result. cbn [ciStarts ciEnds csStarts csEnds]. unfold sameCurve. destruct runs as [|r0 [|r1 runs]]; cbn [map].
    - split; [discriminate|]. intros (run & E & _). discriminate.
    - split; [intros E; exists r0; auto|]. intros (run & E & F). injection E as <-. exact F.
    - split; [discriminate|]. intros (run & E & _). discriminate. }
  assert (Hany : anyIntersects (infoOf A B intrs runs) = true <-> intrs <> [] \/ coincs <> []).
  { unfold anyIntersects, infoOf, result. cbn [ciSlices csSlices ciIntrs]. rewrite map_length, orb_true_iff, !negb_true_iff, !Nat.eqb_neq.
    assert (L : forall X (l : list X), length l <> 0%nat <-> l <> []) by (intros X [|x l]; cbn; split; congruence || lia). rewrite !L.
    split; [intros [H|H]; auto; right; intros E; destruct Hruns as [[_ R]|[N _]]; congruence|]. intros [H|H]; auto. }
  destruct (anyIntersects (infoOf A B intrs runs)) eqn:Ea.
  - right. exists runs. split; [now apply Hany|]. split; [exact Hruns|]. destruct (completelyCoincident (infoOf A B intrs runs)) eqn:Ecc.
    + left. split; [now apply Hcc|]. destruct mode; injection Er as <-; reflexivity.
    + right. split; [intros F; apply Hcc in F; congruence|]. cbn [negb] in Er. destruct mode.
      * apply bind_inv in Er. destruct Er as (cs & Ecs & Er). apply bind_inv in Er. destruct Er as (rem & Est & Er). injection Er as <-.
        exists [rem]. split; [constructor; [|constructor]; eapply (collected_pass A B intrs runs Union); eauto; reflexivity|].
        cbn [concat]. rewrite app_nil_r. unfold splitByOrientation, infoOf. cbn [remaining subtracted ciPline1IsCW]. rewrite neg_R'. split; apply filter_ext; intros p; rewrite neg_R'; now rewrite ?negb_involutive.
      * apply bind_inv in Er. destruct Er as (cs & Ecs & Er). apply bind_inv in Er. destruct Er as (rem & Est & Er). injection Er as <-.
        exists [rem]. split; [constructor; [|constructor]; eapply (collected_pass A B intrs runs Exclude); eauto; reflexivity|]. cbn [concat]. rewrite app_nil_r. auto.
      * apply bind_inv in Er. destruct Er as (cs & Ecs & Er). apply bind_inv in Er. destruct Er as (rem & Est & Er). injection Er as <-.
        exists [rem]. split; [constructor; [|constructor]; eapply (collected_pass A B intrs runs Intersect); eauto; reflexivity|]. cbn [concat]. rewrite app_nil_r. auto.
      * apply bind_inv in Er. destruct Er as (cs & Ecs & Er). apply bind_inv in Er. destruct Er as (rem & Est & Er). apply bind_inv in Er. destruct Er as (cs2 & Ecs2 & Er). apply bind_inv in Er. destruct Er as (rem2 & Est2 & Er). injection Er as <-.
        exists [rem; rem2]. split; [constructor; [eapply (collected_pass A B intrs runs XOR); eauto; reflexivity|constructor; [|constructor]; eapply (collected_pass A B intrs runs XOR); eauto; reflexivity]|]. cbn [concat]. rewrite app_nil_r. auto.
  - left. assert (Hi : intrs = []) by (destruct intrs; [auto|]; exfalso; assert (F : false = true) by (apply Hany; left; discriminate); discriminate).
    assert (Hc : coincs = []) by (destruct coincs; [auto|]; exfalso; assert (F : false = true) by (apply Hany; right; discriminate); discriminate).
    split; [exact Hi|]. split; [exact Hc|]. assert (Hr : runs = []) by (destruct Hruns as [[_ R]|[N _]]; congruence).
    assert (Ecc : completelyCoincident (infoOf A B intrs runs) = false) by (rewrite Hr; reflexivity). rewrite Ecc in Er. cbn [negb] in Er. unfold byContainment, inOf.
    destruct mode; injection Er as <-; destruct (negb (getWindingNumber B (pos (at_ A 0)) =? 0)%Z), (negb (getWindingNumber A (pos (at_ B 0)) =? 0)%Z); reflexivity.
Qed.
End Proof.

(** ** Non-vacuity: two squares with a common side *)
Example C61_squares {SL : StdLib} {SLaws : StdLaws SL} mode : let A := mkPline true [mkVertex 0 0 0; mkVertex 2 0 0; mkVertex 2 2 0; mkVertex 0 2 0] in
  let B := mkPline true [mkVertex 2 0 0; mkVertex 4 0 0; mkVertex 4 2 0; mkVertex 2 2 0] in
  exists ix intrs coincs r, createApproxSpatialIndex A = Ok ix /\ findIntersects defaultNodeSize A B ix [] [] = Ok (intrs, coincs) /\ combinePolylines A B mode = Ok r /\
    ((intrs = [] /\ coincs = [] /\ r = byContainment A B mode) \/
     exists runs, (intrs <> [] \/ coincs <> []) /\ ((coincs = [] /\ runs = []) \/ (coincs <> [] /\ joinedRuns A coincs runs)) /\
       ((sameCurve A B runs /\ r = ofSameCurve A mode) \/ (~ sameCurve A B runs /\ assembled A B mode intrs runs r))).
Proof.
  intros A B. apply C61_contact; [split; [cbn; lia|split; [cbn; lia|left; cbn; lia]]|split; [reflexivity|cbn; lia]|split; [reflexivity|cbn; lia]|cbn; lia].
Qed.
