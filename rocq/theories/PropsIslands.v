(** * C41: ParallelOffsetIslands::compute: classification of the results, independence of earlier calls *)
From Coq Require Import ZArith Reals Lra List Bool Arith Lia Permutation.
From Verif Require Import Base Num MathUtils PlineSegment SpatialIndex Polyline Intersects Combine Offset Islands PropsCombine PropsParallel.
Import ListNotations.

(** ** Specification *)
Section Spec.
Context {RO : RealOps} {SL : StdLib}.

(** the i-th input loop, counter clockwise ones first *)
Definition inputLoop (input : loopSet) (i : nat) (l : offsetLoop) : Prop := nth_error (ccwLoops input ++ cwLoops input) i = Some l.

(** [l] is a parallel offset of the input loop it names as its parent *)
Definition isOffsetOf (input : loopSet) (absDelta : T) (l : offsetLoop) : Prop :=
  exists parent offs, inputLoop input (parentLoopIndex l) parent /\ parallelOffset (lpoly parent) absDelta false = Ok offs /\ In (lpoly l) offs.

(** [pt] passes the distance test against every input loop but the one named [skip] *)
Definition farFromOthers (input : loopSet) (absDelta : T) (skip : nat) (pt : vec) : Prop :=
  forall i l, inputLoop input i l -> i <> skip -> pointValidForOffset defaultNodeSize (lpoly l) absDelta (lindex l) pt = Ok true.

(** a result loop is an untouched parallel offset of an input loop whose first vertex passes the distance test against all other input loops,
    or a closed polyline of at least two vertices with area at least 1e-4, stitched together *)
Definition legitimate (input : loopSet) (absDelta : T) (l : offsetLoop) : Prop :=
  createApproxSpatialIndex (lpoly l) = Ok (lindex l) /\
  ((isOffsetOf input absDelta l /\ exists v0 vs, vertexes (lpoly l) = v0 :: vs /\ farFromOthers input absDelta (parentLoopIndex l) (pos v0)) \/
   (parentLoopIndex l = 0%nat /\ closedPline (lpoly l) /\ (tabs (getArea (lpoly l)) <? tlit 1 10000)%t = false)).

(** a sequence of completed compute() calls on one object *)
Inductive calls : islandsObj -> list (loopSet * T) -> islandsObj -> Prop :=
| calls_nil o : calls o [] o
| calls_cons o input d o1 r rest o2 : compute o input d = Ok (o1, r) -> calls o1 rest o2 -> calls o ((input, d) :: rest) o2.

(** what the caller sees of a call *)
Definition result {A B} (m : res (A * B)) : res B := let! x := m in Ok (snd x).
End Spec.

Section Generic.
Context {RO : RealOps} {SL : StdLib}.

(** ** Relating two runs *)
Definition resRel {A B} (R : A -> B -> Prop) (m1 : res A) (m2 : res B) : Prop :=
  match m1, m2 with Ok a, Ok b => R a b | UB, UB => True | Fuel, Fuel => True | _, _ => False end.

Lemma rel_bind {A B A' B'} (R : A -> A' -> Prop) (Q : B -> B' -> Prop) m1 m2 (f1 : A -> res B) (f2 : A' -> res B') :
  resRel R m1 m2 -> (forall a b, R a b -> resRel Q (f1 a) (f2 b)) -> resRel Q (bind m1 f1) (bind m2 f2).
Proof. destruct m1, m2; cbn; intros H K; try contradiction; auto. Qed.

Lemma rel_eq {A} (m : res A) : resRel eq m m.
Proof. destruct m; cbn; auto. Qed.

Lemma rel_fold {A S1 S2} (R : S1 -> S2 -> Prop) (f1 : S1 -> A -> res S1) (f2 : S2 -> A -> res S2) l :
  (forall a s1 s2, R s1 s2 -> resRel R (f1 s1 a) (f2 s2 a)) -> forall s1 s2, R s1 s2 -> resRel R (mfold f1 l s1) (mfold f2 l s2).
Proof.
  intros H. induction l as [|a l IH]; intros s1 s2 Hs; cbn [mfold]; [exact Hs|]. eapply rel_bind; [apply H, Hs|]. intros; now apply IH.
Qed.

(** equal up to the dissection points *)
Definition sameButDiss (o1 o2 : islandsObj) : Prop :=
  o_ccw o1 = o_ccw o2 /\ o_cw o1 = o_cw o2 /\ o_index o1 = o_index o2 /\ o_visited o1 = o_visited o2 /\ o_sets o1 = o_sets o2 /\ o_lookup o1 = o_lookup o2.
Definition sameLoops (o1 o2 : islandsObj) : Prop := o_ccw o1 = o_ccw o2 /\ o_cw o1 = o_cw o2.

Lemma rel_offsetLoops o1 o2 input d : resRel sameLoops (createOffsetLoops o1 input d) (createOffsetLoops o2 input d).
Proof.
  unfold createOffsetLoops. eapply rel_bind; [apply rel_eq|]. intros [pi ccw] ? <-. eapply rel_bind; [apply rel_eq|]. intros [[pi2 ccw2] cw] ? <-. cbn. split; reflexivity.
Qed.

Lemma rel_index o1 o2 : sameLoops o1 o2 -> resRel (fun a b => sameLoops a b /\ o_index a = o_index b) (createOffsetLoopsIndex o1) (createOffsetLoopsIndex o2).
Proof.
  intros [H1 H2]. unfold createOffsetLoopsIndex, totalOffsetLoopsCount. rewrite H1, H2. eapply rel_bind; [apply rel_eq|]. intros ix ? <-. eapply rel_bind; [apply rel_eq|]. intros ix1 ? <-.
  eapply rel_bind; [apply rel_eq|]. intros ix2 ? <-. eapply rel_bind; [apply rel_eq|]. intros ix3 ? <-. cbn. repeat split; auto.
Qed.

Lemma rel_getLoop o1 o2 i : sameLoops o1 o2 -> getOffsetLoop o1 i = getOffsetLoop o2 i.
Proof. intros [H1 H2]. unfold getOffsetLoop. now rewrite H1, H2. Qed.

Lemma rel_pair o1 o2 i l st j : sameLoops o1 o2 -> slicePointsPair o1 i l st j = slicePointsPair o2 i l st j.
Proof. intros H. unfold slicePointsPair. destruct st as [[v s] lk]. rewrite (rel_getLoop o1 o2 j H). reflexivity. Qed.

Lemma rel_slicePoints o1 o2 : sameLoops o1 o2 -> o_index o1 = o_index o2 -> resRel sameButDiss (createSlicePoints o1) (createSlicePoints o2).
Proof.
  intros H Hi. unfold createSlicePoints, totalOffsetLoopsCount. rewrite Hi, (proj1 H), (proj2 H). eapply rel_bind; [apply rel_eq|]. intros ix ? <-.
  eapply (rel_bind eq).
  - apply rel_fold; [|reflexivity]. intros i s ? <-. rewrite (rel_getLoop o1 o2 i H). eapply rel_bind; [apply rel_eq|]. intros l ? <-. eapply rel_bind; [apply rel_eq|]. intros q ? <-.
    apply rel_fold; [|reflexivity]. intros j s' ? <-. rewrite (rel_pair o1 o2 i l s' j H). apply rel_eq.
  - intros [[v s] lk] ? <-. cbn. destruct H. repeat split; auto.
Qed.

Lemma rel_process input d : forall st1 st2 i, (let '(o1, r1, s1) := st1 in let '(o2, r2, s2) := st2 in sameButDiss o1 o2 /\ r1 = r2 /\ s1 = s2) ->
  resRel (fun st1 st2 => let '(o1, r1, s1) := st1 in let '(o2, r2, s2) := st2 in sameButDiss o1 o2 /\ r1 = r2 /\ s1 = s2) (processLoop input d st1 i) (processLoop input d st2 i).
Proof.
  intros [[o1 r] s] [[o2 r2] s2] i (H & <- & <-). assert (HL : sameLoops o1 o2) by (split; apply H). unfold processLoop. destruct H as (H1 & H2 & H3 & H4 & H5 & H6).
  rewrite H6. eapply rel_bind; [apply rel_eq|]. intros lk ? <-. destruct (_ =? 0)%nat.
  - rewrite (rel_getLoop o1 o2 i HL). eapply rel_bind; [apply rel_eq|]. intros l ? <-. eapply rel_bind; [apply rel_eq|]. intros v0 ? <-. eapply rel_bind; [apply rel_eq|]. intros ok ? <-.
    rewrite H1. destruct (negb ok); [|destruct (_ <? _)%nat]; cbn; unfold sameButDiss; auto 10.
  - unfold createSlicesFromLoop. rewrite (rel_getLoop o1 o2 i HL). 
    assert (Hf : fillDiss o1 i = fillDiss o2 i) by (unfold fillDiss; rewrite H5, H6; reflexivity). rewrite Hf.
    eapply (rel_bind (fun a b => sameButDiss (fst a) (fst b) /\ snd a = snd b)).
    + eapply rel_bind; [apply rel_eq|]. intros l ? <-. eapply rel_bind; [apply rel_eq|]. intros m ? <-. eapply rel_bind; [apply rel_eq|]. intros m' ? <-. eapply rel_bind; [apply rel_eq|].
      intros res ? <-. cbn. unfold sameButDiss. cbn. auto 10.
    + intros [oa sa] [ob sb] [K Hs]. cbn [fst snd] in K, Hs. subst sb. cbn. auto.
Qed.

(** Two objects in any states: the same call gives the same result (or the same failure). *)
Lemma compute_independent o1 o2 input d : result (compute o1 input d) = result (compute o2 input d).
Proof.
  assert (G : resRel (fun a b => snd a = snd b) (compute o1 input d) (compute o2 input d)).
  { unfold compute. eapply rel_bind; [apply rel_offsetLoops|]. intros a1 a2 Ha. unfold totalOffsetLoopsCount at 1 3. rewrite (proj1 Ha), (proj2 Ha). destruct (_ =? 0)%nat; [reflexivity|].
    eapply rel_bind; [apply rel_index, Ha|]. intros b1 b2 [Hb Hbi]. eapply rel_bind; [apply rel_slicePoints; auto|]. intros c1 c2 Hc.
    unfold totalOffsetLoopsCount. rewrite (proj1 Hc), (proj1 (proj2 Hc)).
    eapply rel_bind; [apply rel_fold; [intros; now apply rel_process|cbn; auto]|]. intros [[e1 r1] s1] [[e2 r2] s2] (_ & <- & <-).
    eapply rel_bind; [apply rel_eq|]. intros st ? <-. eapply rel_bind; [apply rel_eq|]. intros r ? <-. reflexivity. }
  unfold result. destruct (compute o1 input d), (compute o2 input d); cbn in *; try contradiction; congruence.
Qed.

Theorem C41_history_independent history o : calls newObj history o -> forall input d, result (compute o input d) = result (compute newObj input d).
Proof. intros _ input d. apply compute_independent. Qed.

(** ** Classification *)
Lemma getParent_input input i l : getParentLoop input i = Ok l <-> inputLoop input i l.
Proof.
  unfold getParentLoop, inputLoop. destruct (Nat.ltb_spec i (length (ccwLoops input))) as [H|H].
  - rewrite nth_error_app1 by auto. apply rget_inv.
  - rewrite nth_error_app2 by auto. apply rget_inv.
Qed.

Definition goodLoop input d (neg : bool) (l : offsetLoop) : Prop := isOffsetOf input d l /\ (getArea (lpoly l) <? t0)%t = neg /\ createApproxSpatialIndex (lpoly l) = Ok (lindex l).

Lemma offsets_classified o input d o' : createOffsetLoops o input d = Ok o' -> List.Forall (goodLoop input d false) (o_ccw o') /\ List.Forall (goodLoop input d true) (o_cw o').
Proof.
  unfold createOffsetLoops. intros E. apply bind_inv in E. destruct E as ([pi ccw] & E1 & E). apply bind_inv in E. destruct E as ([[pi2 ccw2] cw] & E2 & E). injection E as <-. cbn [o_ccw o_cw].
  assert (G1 : forall suf pre pi0 ccw0 pi1 ccw1, ccwLoops input = pre ++ suf -> pi0 = length pre -> List.Forall (goodLoop input d false) ccw0 ->
    mfold (fun '(parentIndex, ccw) loop => let! offsets := parallelOffset (lpoly loop) d false in let! ccw := mfold (addCcwOffset parentIndex) offsets ccw in Ok (S parentIndex, ccw)) suf (pi0, ccw0) = Ok (pi1, ccw1) ->
    pi1 = length (ccwLoops input) /\ List.Forall (goodLoop input d false) ccw1).
  { clear. induction suf as [|lp suf IH]; intros pre pi0 ccw0 pi1 ccw1 Hin Hpi H0 E; cbn [mfold] in E.
    - injection E as <- <-. rewrite Hin, app_nil_r. auto.
    - apply bind_inv in E. destruct E as ([pi' ccw'] & E1 & E). apply bind_inv in E1. destruct E1 as (offs & Eo & E1). apply bind_inv in E1. destruct E1 as (ccw2 & E2 & E1). injection E1 as <- <-.
      apply (IH (pre ++ [lp]) (S pi0) ccw2 pi1 ccw1); [rewrite Hin, <- app_assoc; reflexivity|rewrite app_length; cbn; lia| |exact E].
      eapply (mfold_inv _ (List.Forall (goodLoop input d false))); [|exact E2|exact H0]. intros s off s' Hoff Ea Hs. unfold addCcwOffset in Ea. destruct (getArea off <? t0)%t eqn:A; [injection Ea as <-; auto|].
      apply bind_inv in Ea. destruct Ea as (ix & Eix & Ea). injection Ea as <-. apply Forall_app. split; [auto|]. constructor; [|constructor]. split; [|cbn; auto].
      exists lp, offs. cbn [parentLoopIndex lpoly]. split; [|auto]. unfold inputLoop. rewrite Hin, <- app_assoc. rewrite nth_error_app2 by lia. now replace (pi0 - length pre)%nat with 0%nat by lia. }
  destruct (G1 (ccwLoops input) [] _ _ _ _ eq_refl eq_refl (Forall_nil _) E1) as [-> H1]. clear G1 E1.
  assert (G2 : forall suf pre pi0 ccw0 cw0 pi1 ccw1 cw1, cwLoops input = pre ++ suf -> pi0 = (length (ccwLoops input) + length pre)%nat -> List.Forall (goodLoop input d false) ccw0 -> List.Forall (goodLoop input d true) cw0 ->
    mfold (fun '(parentIndex, ccw, cw) loop => let! offsets := parallelOffset (lpoly loop) d false in let! (ccw, cw) := mfold (addCwOffset parentIndex) offsets (ccw, cw) in Ok (S parentIndex, ccw, cw)) suf (pi0, ccw0, cw0) = Ok (pi1, ccw1, cw1) ->
    List.Forall (goodLoop input d false) ccw1 /\ List.Forall (goodLoop input d true) cw1).
  { clear. induction suf as [|lp suf IH]; intros pre pi0 ccw0 cw0 pi1 ccw1 cw1 Hin Hpi H0 H0' E; cbn [mfold] in E.
    - injection E as <- <- <-. auto.
    - apply bind_inv in E. destruct E as ([[pi' ccw'] cw'] & E1 & E). apply bind_inv in E1. destruct E1 as (offs & Eo & E1). apply bind_inv in E1. destruct E1 as ([ccw2 cw2] & E2 & E1). injection E1 as <- <- <-.
      assert (K : List.Forall (goodLoop input d false) ccw2 /\ List.Forall (goodLoop input d true) cw2).
      { apply (mfold_inv _ (fun st => List.Forall (goodLoop input d false) (fst st) /\ List.Forall (goodLoop input d true) (snd st))) in E2; [exact E2| |cbn; auto].
        intros [c w] off [c' w'] Hoff Ea [Hc Hw]. cbn [fst snd] in *. unfold addCwOffset in Ea. apply bind_inv in Ea. destruct Ea as (ix & Eix & Ea).
        assert (Hl : isOffsetOf input d (mkLoop pi0 off ix)).
        { exists lp, offs. cbn [parentLoopIndex lpoly]. split; [|auto]. unfold inputLoop. rewrite nth_error_app2 by lia. rewrite Hin. rewrite nth_error_app2 by lia. now replace (pi0 - length (ccwLoops input) - length pre)%nat with 0%nat by lia. }
        assert (Hix : createApproxSpatialIndex (lpoly (mkLoop pi0 off ix)) = Ok (lindex (mkLoop pi0 off ix))) by exact Eix.
        destruct (getArea off <? t0)%t eqn:A; injection Ea as <- <-.
        - split; [exact Hc|]. apply Forall_app. split; [exact Hw|]. constructor; [|constructor]. split; [exact Hl|]. split; [exact A|exact Hix].
        - split; [|exact Hw]. apply Forall_app. split; [exact Hc|]. constructor; [|constructor]. split; [exact Hl|]. split; [exact A|exact Hix]. }
      destruct K as [K1 K2]. apply (IH (pre ++ [lp]) (S pi0) ccw2 cw2 pi1 ccw1 cw1); [rewrite Hin, <- app_assoc; reflexivity|rewrite app_length; cbn; lia|exact K1|exact K2|exact E]. }
  apply (G2 (cwLoops input) [] (length (ccwLoops input)) ccw [] pi2 ccw2 cw); [reflexivity|cbn; lia|exact H1|constructor|exact E2].
Qed.

Lemma index_same o o' : createOffsetLoopsIndex o = Ok o' -> o_ccw o' = o_ccw o /\ o_cw o' = o_cw o.
Proof. unfold createOffsetLoopsIndex. intros E. do 4 (apply bind_inv in E; destruct E as (? & _ & E)). injection E as <-. auto. Qed.
Lemma slicePoints_same o o' : createSlicePoints o = Ok o' -> o_ccw o' = o_ccw o /\ o_cw o' = o_cw o.
Proof. unfold createSlicePoints. intros E. apply bind_inv in E. destruct E as (ix & _ & E). apply bind_inv in E. destruct E as ([[v s] lk] & _ & E). injection E as <-. auto. Qed.
Lemma slices_same o input i d s o' s' : createSlicesFromLoop o input i d s = Ok (o', s') -> o_ccw o' = o_ccw o /\ o_cw o' = o_cw o.
Proof. unfold createSlicesFromLoop. intros E. do 4 (apply bind_inv in E; destruct E as (? & _ & E)). injection E as <- _. auto. Qed.

Lemma valid_all input skip pt d : pointOnOffsetValid input skip pt d = Ok true -> farFromOthers input d skip pt.
Proof.
  unfold pointOnOffsetValid, farFromOthers. rewrite <- app_length. set (F := fun ok i => _). intros E i l Hi Hne.
  assert (Hlt : In i (seq 0 (length (ccwLoops input ++ cwLoops input)))). { apply in_seq. split; [lia|]. apply nth_error_Some. unfold inputLoop in Hi. rewrite Hi. discriminate. }
  assert (Hfalse : forall l0 b, mfold F l0 false = Ok b -> b = false). { clear. induction l0 as [|a l0 IH]; intros b E; cbn [mfold] in E; [congruence|]. unfold F at 1 in E. cbn [negb bind] in E. auto. }
  revert Hlt E. generalize (seq 0 (length (ccwLoops input ++ cwLoops input))) as l0. induction l0 as [|a l0 IH]; intros Hin E; [destruct Hin|].
  cbn [mfold] in E. apply bind_inv in E. destruct E as (b & Eb & E). destruct b; [|apply Hfalse in E; discriminate].
  destruct Hin as [->|Hin]; [|auto]. unfold F in Eb. cbn [negb] in Eb. destruct (Nat.eqb_spec i skip); [contradiction|]. apply bind_inv in Eb. destruct Eb as (parent & Ep & Eb).
  apply getParent_input in Ep. unfold inputLoop in *. rewrite Hi in Ep. injection Ep as <-. exact Eb.
Qed.

Lemma process_inv input d st i st' (C W : list offsetLoop) : 
  List.Forall (goodLoop input d false) C -> List.Forall (goodLoop input d true) W ->
  processLoop input d st i = Ok st' -> 
  (let '(o, r, s) := st in o_ccw o = C /\ o_cw o = W /\ List.Forall (fun l => (getArea (lpoly l) <? t0)%t = false /\ legitimate input d l) (ccwLoops r) /\ List.Forall (fun l => (getArea (lpoly l) <? t0)%t = true /\ legitimate input d l) (cwLoops r)) ->
  (let '(o, r, s) := st' in o_ccw o = C /\ o_cw o = W /\ List.Forall (fun l => (getArea (lpoly l) <? t0)%t = false /\ legitimate input d l) (ccwLoops r) /\ List.Forall (fun l => (getArea (lpoly l) <? t0)%t = true /\ legitimate input d l) (cwLoops r)).
Proof.
  intros HC HW. destruct st as [[o r] s], st' as [[o' r'] s']. unfold processLoop. intros E (E1 & E2 & H1 & H2). apply bind_inv in E. destruct E as (lk & _ & E). destruct (_ =? 0)%nat.
  - apply bind_inv in E. destruct E as (l & El & E). apply bind_inv in E. destruct E as (v0 & Ev & E). apply bind_inv in E. destruct E as (ok & Eok & E).
    destruct ok; cbn [negb] in E; [|injection E as <- <- <-; auto]. apply valid_all in Eok.
    assert (Hv : exists v0 vs, vertexes (lpoly l) = v0 :: vs /\ farFromOthers input d (parentLoopIndex l) (pos v0)).
    { unfold vget in Ev. apply rget_inv in Ev. destruct (vertexes (lpoly l)) as [|v vs]; [discriminate|]. injection Ev as <-. eauto. }
    unfold getOffsetLoop in El. rewrite E1, E2 in El. rewrite E1 in E. destruct (i <? length C)%nat.
    + injection E as <- <- <-. cbn [ccwLoops cwLoops]. split; [auto|]. split; [auto|]. split; [|auto]. apply Forall_app. split; [auto|]. constructor; [|constructor].
      apply rget_inv in El. apply nth_error_In in El. rewrite List.Forall_forall in HC. destruct (HC l El) as (A & B & D). split; [auto|]. split; [auto|]. now left.
    + injection E as <- <- <-. cbn [ccwLoops cwLoops]. split; [auto|]. split; [auto|]. split; [auto|]. apply Forall_app. split; [auto|]. constructor; [|constructor].
      apply rget_inv in El. apply nth_error_In in El. rewrite List.Forall_forall in HW. destruct (HW l El) as (A & B & D). split; [auto|]. split; [auto|]. now left.
  - apply bind_inv in E. destruct E as ([o1 s1] & Es & E). injection E as <- <- <-. apply slices_same in Es. destruct Es as [-> ->]. auto.
Qed.

(** Counter clockwise results have no negative area, clockwise ones a negative area; each is legitimate. *)
Theorem C41_classification o input d o' r : compute o input d = Ok (o', r) ->
  (forall l, In l (ccwLoops r) -> (getArea (lpoly l) <? t0)%t = false /\ legitimate input (tabs d) l) /\
  (forall l, In l (cwLoops r) -> (getArea (lpoly l) <? t0)%t = true /\ legitimate input (tabs d) l).
Proof.
  unfold compute. intros E. apply bind_inv in E. destruct E as (o1 & E1 & E). apply offsets_classified in E1. destruct E1 as [HC HW].
  destruct (_ =? 0)%nat; [injection E as <- <-; split; intros l []|].
  apply bind_inv in E. destruct E as (o2 & E2 & E). apply index_same in E2. destruct E2 as [E2 E2']. apply bind_inv in E. destruct E as (o3 & E3 & E). apply slicePoints_same in E3. destruct E3 as [E3 E3'].
  apply bind_inv in E. destruct E as ([[o4 r4] s4] & E4 & E).
  apply (mfold_inv _ (fun st => let '(o, r, s) := st in o_ccw o = o_ccw o1 /\ o_cw o = o_cw o1 /\ List.Forall (fun l => (getArea (lpoly l) <? t0)%t = false /\ legitimate input (tabs d) l) (ccwLoops r) /\ List.Forall (fun l => (getArea (lpoly l) <? t0)%t = true /\ legitimate input (tabs d) l) (cwLoops r))) in E4.
  2:{ intros s a s' _ Es Hs. eapply process_inv; eauto. }
  2:{ cbn. rewrite E3, E3', E2, E2'. auto. }
  destruct E4 as (_ & _ & H1 & H2). apply bind_inv in E. destruct E as (st & Est & E). apply stitch_closed in Est. apply bind_inv in E. destruct E as (r5 & E5 & E). injection E as <- <-.
  apply (mfold_inv _ (fun r => List.Forall (fun l => (getArea (lpoly l) <? t0)%t = false /\ legitimate input (tabs d) l) (ccwLoops r) /\ List.Forall (fun l => (getArea (lpoly l) <? t0)%t = true /\ legitimate input (tabs d) l) (cwLoops r))) in E5.
  - rewrite !List.Forall_forall in E5. exact E5.
  - intros r p r' Hp Er [K1 K2]. rewrite List.Forall_forall in Est. specialize (Est p Hp). unfold addStitched in Er. destruct (tabs (getArea p) <? tlit 1 10000)%t eqn:A; [injection Er as <-; auto|].
    apply bind_inv in Er. destruct Er as (ix & Eix & Er). assert (L : legitimate input (tabs d) (mkLoop 0 p ix)) by (split; [exact Eix|right; cbn; auto]).
    destruct (getArea p <? t0)%t eqn:B; injection Er as <-; cbn [ccwLoops cwLoops]; (split; [|]); auto; apply Forall_app; split; auto; constructor; auto; constructor.
  - auto.
Qed.
End Generic.

(** ** Distances (exact reals) *)
From Verif Require Import RGeom Spec PropsMath PropsPlineIntr PropsPolyline PropsExtents PropsPlineIndex PropsRegion PropsOffset.
Local Open Scope R_scope.

(** an input loop as built by the caller: its index is the one of its polyline *)
Definition wellMade (l : @offsetLoop ROps) : Prop :=
  createApproxSpatialIndex (lpoly l) = Ok (lindex l) /\ indexable (lpoly l) /\ okPath (lpoly l) /\ smallBulges (lpoly l).

(** A result loop that was not cut has its first vertex at distance at least |delta| - 2e-4 from every input loop but its own parent. *)
Theorem C41_untouched_far {SL : StdLib} (o : islandsObj) input d o' r : 1 / 10000 <= Rabs d ->
  (forall l, In l (ccwLoops input ++ cwLoops input) -> wellMade l) -> compute o input d = Ok (o', r) ->
  forall l, In l (ccwLoops r ++ cwLoops r) ->
    (exists v0 vs, vertexes (lpoly l) = v0 :: vs /\ forall i l' q, inputLoop input i l' -> i <> parentLoopIndex l -> onPath (lpoly l') q -> Rabs d - 2 / 10000 < dist (pos v0) q) \/
    (closedPline (lpoly l) /\ 1 / 10000 <= Rabs (getArea (lpoly l))).
Proof.
  intros Hd Hin E l Hl. destruct (C41_classification _ _ _ _ _ E) as [H1 H2].
  assert (L : legitimate input (tabs d) l) by (apply in_app_or in Hl; destruct Hl as [Hl|Hl]; [apply H1|apply H2]; auto). clear H1 H2.
  destruct L as [_ [(_ & v0 & vs & Ev & Hf)|(_ & Hc & Ha)]].
  - left. exists v0, vs. split; [exact Ev|]. intros i l' q Hi Hne Hq. specialize (Hf i l' Hi Hne). apply nth_error_In in Hi. destruct (Hin l' Hi) as (Eix & Hix & Hok & Hsm).
    rcbn. assert (Ed : Rabs (Rabs d) = Rabs d) by apply Rabs_Rabsolu.
    destruct (C37_offset_distance (lpoly l') (pos v0) (Rabs d) Hix Hok Hsm ltac:(rewrite Ed; lra)) as (ix & b & Eix' & Eb & Hacc & _). rewrite Eix in Eix'. injection Eix' as <-.
    assert (b = true). { assert (Ok b = Ok true) by (rewrite <- Eb; exact Hf). congruence. }
    destruct (Hacc H) as [H3 _]. specialize (H3 q Hq). rewrite Ed in H3. lra.
  - right. split; [exact Hc|]. rcbn. apply Rltb_false in Ha. exact Ha.
Qed.
