(** * C21, C22: segment iteration and direction inversion *)
From Coq Require Import ZArith Reals Lra Lia List Bool Arith Permutation.
From Verif Require Import Base Num MathUtils PlineSegment SpatialIndex Polyline RGeom Spec PropsMath ArcGeom Polar PropsSegment.
Import ListNotations.
Open Scope nat_scope.

(** ** Specification *)
Section Spec.
Context {RO : RealOps}.

(** the index pairs of the segments, in visiting order (the closing segment comes first) *)
Definition segs (pl : polyline) : list (nat * nat) :=
  let n := length (vertexes pl) in
  if n <? 2 then []
  else (if isClosed pl then [(n - 1, 0)] else []) ++ map (fun i => (i, i + 1)) (seq 0 (n - 1)).

(** run a visitor over a list until it returns false *)
Fixpoint foldStop {St : Type} (visitor : St -> nat -> nat -> bool * St) (l : list (nat * nat)) (st : St) : St :=
  match l with
  | [] => st
  | (i, j) :: l' => let '(go, st') := visitor st i j in if go then foldStop visitor l' st' else st'
  end.

(** consecutive pairs *)
Fixpoint openSegs (v0 : vertex) (vs : list vertex) : list (vertex * vertex) :=
  match vs with [] => [] | v1 :: vs' => (v0, v1) :: openSegs v1 vs' end.
(** the segments of the path in path order, from the first vertex *)
Definition pathSegs (pl : polyline) : list (vertex * vertex) :=
  match vertexes pl with
  | v0 :: ((_ :: _) as vs) =>
      openSegs v0 vs ++ (if isClosed pl then [(last vs v0, v0)] else [])
  | _ => []
  end.
End Spec.

(** ** C21 *)
Section C21.
Context {RO : RealOps}.

Lemma visit_loop_spec {St} n (visitor : St -> nat -> nat -> bool * St) fuel i j st : n - i < fuel ->
  1 <= i -> j = i - 1 ->
  visitSeg_loop fuel n visitor i j st = foldStop visitor (map (fun i => (i, i + 1)) (seq (i - 1) (n - i))) st.
Proof.
  revert i j st. induction fuel as [|fuel IH]; intros i j st Hf Hi ->; [lia|].
  cbn [visitSeg_loop]. destruct (Nat.ltb_spec i n) as [L|L].
  - replace (n - i) with (S (n - (i + 1))) by lia. cbn [seq map foldStop].
    replace (i - 1 + 1) with i by lia.
    destruct (visitor st (i - 1) i) as [go st']. destruct go; auto.
    rewrite IH by lia. replace (i + 1 - 1) with (S (i - 1)) by lia. reflexivity.
  - replace (n - i) with 0 by lia. reflexivity.
Qed.

Theorem C21_visit_order {St : Type} (pl : polyline) (visitor : St -> nat -> nat -> bool * St) (st : St) :
  visitSegIndices pl visitor st = foldStop visitor (segs pl) st.
Proof.
  unfold visitSegIndices, segs, size. set (n := length (vertexes pl)).
  destruct (Nat.ltb_spec n 2) as [L|L]; auto.
  destruct (isClosed pl).
  - cbn [visitSeg_loop app foldStop]. destruct (Nat.ltb_spec 0 n); [|lia].
    destruct (visitor st (n - 1) 0) as [go st']. destruct go; auto.
    rewrite visit_loop_spec by lia. reflexivity.
  - rewrite visit_loop_spec by lia. reflexivity.
Qed.

(** every visited pair is in range and is a pair of cyclically consecutive indices *)
Theorem C21_indices (pl : polyline) i j :
  In (i, j) (segs pl) <->
  2 <= length (vertexes pl) /\ i < length (vertexes pl) /\ j < length (vertexes pl) /\
  (j = i + 1 \/ (isClosed pl = true /\ i = length (vertexes pl) - 1 /\ j = 0)).
Proof.
  unfold segs. set (n := length (vertexes pl)). destruct (Nat.ltb_spec n 2) as [L|L]; cbn [In].
  - split; [tauto|lia].
  - rewrite in_app_iff, in_map_iff. split.
    + intros [H|(k & H & Hk)].
      * destruct (isClosed pl); cbn in H; [|tauto]. destruct H as [H|[]]. injection H as <- <-. repeat split; auto; lia.
      * injection H as <- <-. apply in_seq in Hk. repeat split; auto; lia.
    + intros (_ & Hi & Hj & [->|(-> & -> & ->)]).
      * right. exists i. split; auto. apply in_seq. lia.
      * left. now left.
Qed.

Theorem C21_each_once (pl : polyline) : NoDup (segs pl).
Proof.
  unfold segs. set (n := length (vertexes pl)). destruct (Nat.ltb_spec n 2) as [L|L]; [constructor|].
  assert (ND : NoDup (map (fun i => (i, i + 1)) (seq 0 (n - 1)))).
  { apply FinFun.Injective_map_NoDup; [|apply seq_NoDup]. intros x y H. injection H. lia. }
  destruct (isClosed pl); auto. cbn [app]. constructor; auto.
  rewrite in_map_iff. intros (k & H & Hk). injection H. lia.
Qed.

Example C21_closed_triangle (a b c : vertex) :
  segs (mkPline true [a; b; c]) = [(2, 0); (0, 1); (1, 2)] /\ segs (mkPline false [a; b; c]) = [(0, 1); (1, 2)].
Proof. split; reflexivity. Qed.

(** ** folds over the segments *)
Lemma foldStop_true {St} (g : St -> nat -> nat -> St) l st :
  foldStop (fun st i j => (true, g st i j)) l st = fold_left (fun st e => g st (fst e) (snd e)) l st.
Proof. revert st. induction l as [|[i j] l IH]; intros st; cbn [foldStop fold_left fst snd]; auto. Qed.

(** the vertex pairs in visiting order *)
Definition vsegs (pl : polyline) : list (vertex * vertex) :=
  map (fun e => (at_ pl (fst e), at_ pl (snd e))) (segs pl).

Lemma visit_fold {St} (pl : polyline) (g : St -> vertex -> vertex -> St) st :
  visitSegIndices pl (fun st i j => (true, g st (at_ pl i) (at_ pl j))) st =
  fold_left (fun st e => g st (fst e) (snd e)) (vsegs pl) st.
Proof.
  rewrite C21_visit_order, (foldStop_true (fun st i j => g st (at_ pl i) (at_ pl j))). unfold vsegs.
  set (l := segs pl). clearbody l. revert st. induction l as [|[i j] l IH]; intros st; cbn [fold_left map fst snd]; auto.
Qed.

Lemma openSegs_nth vs v0 d : openSegs v0 vs =
  map (fun i => (nth i (v0 :: vs) d, nth (i + 1) (v0 :: vs) d)) (seq 0 (length vs)).
Proof.
  revert v0. induction vs as [|v1 vs IH]; intros v0; [reflexivity|].
  cbn [openSegs length seq map]. f_equal.
  rewrite (IH v1). rewrite <- seq_shift, map_map. apply map_ext. intros i. reflexivity.
Qed.

Lemma last_nth' {A} (vs : list A) v0 d : last (v0 :: vs) d = nth (length vs) (v0 :: vs) d.
Proof.
  revert v0. induction vs as [|v1 vs IH]; intros v0; [reflexivity|].
  change (last (v0 :: v1 :: vs) d) with (last (v1 :: vs) d). rewrite IH. reflexivity.
Qed.

Lemma last_default {A} (l : list A) d d' : l <> [] -> last l d = last l d'.
Proof.
  induction l as [|a l IH]; [congruence|]. intros _. destruct l; [reflexivity|].
  change (last (a :: a0 :: l) d) with (last (a0 :: l) d).
  change (last (a :: a0 :: l) d') with (last (a0 :: l) d'). apply IH. discriminate.
Qed.

Lemma vsegs_cases pl : vsegs pl =
  match vertexes pl with
  | v0 :: ((_ :: _) as vs) => (if isClosed pl then [(last vs v0, v0)] else []) ++ openSegs v0 vs
  | _ => []
  end.
Proof.
  unfold vsegs, segs, at_. destruct (vertexes pl) as [|v0 [|v1 vs]]; [reflexivity|reflexivity|].
  replace (length (v0 :: v1 :: vs) <? 2)%nat with false by (symmetry; apply Nat.ltb_ge; cbn [length]; lia).
  rewrite map_app. f_equal.
  - destruct (isClosed pl); [|reflexivity]. cbn [map fst snd].
    change (last (v1 :: vs) v0) with (last (v0 :: v1 :: vs) v0). rewrite (last_default _ v0 vdflt) by discriminate. rewrite last_nth'.
    replace (length (v0 :: v1 :: vs) - 1)%nat with (length (v1 :: vs)) by (cbn [length]; lia). reflexivity.
  - rewrite map_map. cbn [fst snd]. rewrite (openSegs_nth (v1 :: vs) v0 vdflt).
    replace (length (v0 :: v1 :: vs) - 1)%nat with (length (v1 :: vs)) by (cbn [length]; lia). reflexivity.
Qed.

(** visiting order and path order have the same segments *)
Lemma vsegs_perm pl : Permutation (vsegs pl) (pathSegs pl).
Proof.
  rewrite vsegs_cases. unfold pathSegs. destruct (vertexes pl) as [|v0 [|v1 vs]]; auto.
  apply Permutation_app_comm.
Qed.
Lemma vsegs_open pl : isClosed pl = false -> vsegs pl = pathSegs pl.
Proof.
  intros H. rewrite vsegs_cases. unfold pathSegs. rewrite H. destruct (vertexes pl) as [|v0 [|v1 vs]]; auto.
  rewrite app_nil_r. reflexivity.
Qed.
End C21.

(** ** C22 *)
Open Scope R_scope.

(** what matters of a segment: start, bulge, end *)
Definition seg3 (e : vertex * vertex) : vec * R * vec := (pos (fst e), bulge (fst e), pos (snd e)).
Definition rev3 (e : vec * R * vec) : vec * R * vec := let '(p, b, q) := e in (q, - b, p).
Definition trace (pl : polyline) : list (vec * R * vec) := map seg3 (pathSegs pl).
(** move the first element to the end *)
Definition rotate1 {A} (l : list A) : list A := match l with [] => [] | a :: l' => l' ++ [a] end.

Lemma shiftBulges_length f vs : length (shiftBulges f vs) = length vs.
Proof.
  induction vs as [|v [|w vs] IH]; auto. cbn [shiftBulges]. cbn [length] in *. f_equal. exact IH.
Qed.

Lemma shiftBulges_last f v vs d : pos (last (shiftBulges f (v :: vs)) d) = pos (last (v :: vs) d) /\
   bulge (last (shiftBulges f (v :: vs)) d) = - f.
Proof.
  revert v. induction vs as [|w vs IH]; intros v; [split; reflexivity|].
  change (shiftBulges f (v :: w :: vs)) with (setBulge v (- bulge w)%t :: shiftBulges f (w :: vs)).
  change (last (v :: w :: vs) d) with (last (w :: vs) d). rewrite <- (proj1 (IH w)), <- (proj2 (IH w)).
  destruct (shiftBulges f (w :: vs)) eqn:E; [|split; reflexivity].
  pose proof (shiftBulges_length f (w :: vs)) as L. rewrite E in L. discriminate.
Qed.

Lemma shiftBulges_hd_pos f v vs d : pos (hd d (shiftBulges f (v :: vs))) = pos v.
Proof. destruct vs; reflexivity. Qed.

(** segments of the shifted list: starts keep their position, take minus the bulge of the next vertex *)
Lemma shiftBulges_segs f v vs : match shiftBulges f (v :: vs) with
  | [] => False
  | v' :: vs' => map seg3 (openSegs v' vs') = map (fun e => (pos (fst e), - bulge (snd e), pos (snd e))) (openSegs v vs)
  end.
Proof.
  revert v. induction vs as [|w vs IH]; intros v; [reflexivity|].
  change (shiftBulges f (v :: w :: vs)) with (setBulge v (- bulge w)%t :: shiftBulges f (w :: vs)).
  specialize (IH w). destruct (shiftBulges f (w :: vs)) as [|w' vs'] eqn:E; [contradiction|].
  cbn [openSegs map]. rewrite IH. f_equal. unfold seg3. cbn [fst snd setBulge pos bulge].
  pose proof (shiftBulges_hd_pos f w vs vdflt) as P. rewrite E in P. cbn [hd] in P. rewrite P. reflexivity.
Qed.

Lemma openSegs_app v vs w ws : openSegs v (vs ++ w :: ws) = openSegs v vs ++ (last (v :: vs) v, w) :: openSegs w ws.
Proof.
  revert v. induction vs as [|x vs IH]; intros v; [reflexivity|].
  cbn [openSegs app]. rewrite IH. f_equal. f_equal. f_equal. f_equal.
  change (last (v :: x :: vs) v) with (last (x :: vs) v). apply last_default. discriminate.
Qed.

Lemma openSegs_rev vs v : match rev (v :: vs) with
  | [] => False
  | x :: xs => openSegs x xs = rev (map (fun e => (snd e, fst e)) (openSegs v vs)) /\ last (x :: xs) v = v /\ x = last (v :: vs) v
  end.
Proof.
  revert v. induction vs as [|w vs IH]; intros v; [cbn; auto|].
  specialize (IH w). cbn [rev] in *. destruct (rev vs ++ [w]) as [|x xs] eqn:E; [contradiction|].
  destruct IH as (A & B & C). cbn [app openSegs map rev fst snd]. split; [|split].
  - rewrite openSegs_app. cbn [openSegs]. rewrite A. f_equal. f_equal.
    rewrite (last_default (x :: xs) x w) by discriminate. rewrite B. reflexivity.
  - clear. change (x :: xs ++ [v]) with ((x :: xs) ++ [v]). apply last_last.
  - rewrite C. change (last (v :: w :: vs) v) with (last (w :: vs) v). apply last_default. discriminate.
Qed.

Theorem C22_trace_open (pl : polyline) : isClosed pl = false ->
  trace (invertDirection pl) = rev (map rev3 (trace pl)).
Proof.
  intros Hc. unfold invertDirection, size, trace, pathSegs. destruct pl as [c vs]. cbn [isClosed vertexes] in *. subst c.
  destruct vs as [|v [|w vs]]; [reflexivity|reflexivity|].
  replace (length (v :: w :: vs) <? 2)%nat with false by (symmetry; apply Nat.ltb_ge; cbn [length]; lia).
  cbn [vertexes isClosed]. rewrite !app_nil_r.
  pose proof (openSegs_rev (w :: vs) v) as HR. destruct (rev (v :: w :: vs)) as [|x xs] eqn:E; [contradiction|].
  cbn [hd]. pose proof (shiftBulges_segs (bulge x) x xs) as HS.
  assert (Lx : length (x :: xs) = length (v :: w :: vs)) by (rewrite <- E; apply rev_length).
  pose proof (shiftBulges_length (bulge x) (x :: xs)) as LS. rewrite Lx in LS.
  destruct (shiftBulges (bulge x) (x :: xs)) as [|y [|z ys]] eqn:ES; try discriminate.
  rewrite ?app_nil_r, HS. destruct HR as (HR & _ & _). rewrite HR, map_rev, map_map, map_map.
  reflexivity.
Qed.

Theorem C22_trace_closed (pl : polyline) : isClosed pl = true ->
  trace (invertDirection pl) = rotate1 (rev (map rev3 (trace pl))).
Proof.
  intros Hc. unfold invertDirection, size, trace, pathSegs. destruct pl as [c vs]. cbn [isClosed vertexes] in *. subst c.
  destruct vs as [|v [|w vs]]; [reflexivity|reflexivity|].
  replace (length (v :: w :: vs) <? 2)%nat with false by (symmetry; apply Nat.ltb_ge; cbn [length]; lia).
  cbn [vertexes isClosed].
  pose proof (openSegs_rev (w :: vs) v) as HR. destruct (rev (v :: w :: vs)) as [|x xs] eqn:E; [contradiction|].
  cbn [hd]. pose proof (shiftBulges_segs (bulge x) x xs) as HS.
  assert (Lx : length (x :: xs) = length (v :: w :: vs)) by (rewrite <- E; apply rev_length).
  pose proof (shiftBulges_length (bulge x) (x :: xs)) as LS. rewrite Lx in LS.
  pose proof (shiftBulges_last (bulge x) x xs v) as [HL1 HL2].
  pose proof (shiftBulges_hd_pos (bulge x) x xs v) as HH.
  destruct (shiftBulges (bulge x) (x :: xs)) as [|y [|z ys]] eqn:ES; try discriminate.
  cbn [hd] in HH. destruct HR as (HR & HR2 & HR3). rewrite HR2 in HL1.
  rewrite !map_app, HS. rewrite rev_app_distr. cbn [map rev app rotate1]. f_equal.
  - rewrite HR, map_rev, !map_map. reflexivity.
  - f_equal. unfold seg3. cbn [fst snd rev3].
    change (last (z :: ys) y) with (last (y :: z :: ys) y). rewrite (last_default _ y v) by discriminate.
    rewrite HL1, HL2, HH. change (last (w :: vs) v) with (last (v :: w :: vs) v). rewrite HR3. reflexivity.
Qed.

Lemma shift_pos f l : map pos (shiftBulges f l) = map pos l.
Proof.
  induction l as [|v [|w l] IH]; [reflexivity|reflexivity|].
  change (shiftBulges f (v :: w :: l)) with (setBulge v (- bulge w)%t :: shiftBulges f (w :: l)).
  cbn [map]. cbn [map] in IH. rewrite IH. reflexivity.
Qed.
Lemma shift_bulge f l : l <> [] -> map bulge (shiftBulges f l) = map Ropp (tl (map bulge l) ++ [f]).
Proof.
  induction l as [|v [|w l] IH]; [congruence|reflexivity|]. intros _.
  change (shiftBulges f (v :: w :: l)) with (setBulge v (- bulge w)%t :: shiftBulges f (w :: l)).
  cbn [map tl app] in *. rewrite IH by discriminate. reflexivity.
Qed.
Lemma vertex_list_ext (l l' : list vertex) : map pos l = map pos l' -> map bulge l = map bulge l' -> l = l'.
Proof.
  revert l'. induction l as [|v l IH]; intros [|v' l'] H1 H2; try discriminate; auto.
  cbn [map] in *. injection H1 as P1 P2. injection H2 as B1 B2. f_equal; auto.
  destruct v as [p b], v' as [p' b']; cbn [pos bulge] in *; congruence.
Qed.

Theorem C22_involution (pl : polyline) : invertDirection (invertDirection pl) = pl.
Proof.
  unfold invertDirection, size. destruct (length (vertexes pl) <? 2)%nat eqn:E.
  - rewrite E. reflexivity.
  - cbn [vertexes isClosed]. rewrite shiftBulges_length, rev_length, E.
    destruct pl as [c vs]. cbn [isClosed vertexes] in *. f_equal. apply Nat.ltb_ge in E.
    set (r := rev vs). assert (Hr : r <> []).
    { unfold r. intros H. apply (f_equal (@length _)) in H. rewrite rev_length in H. cbn in H. lia. }
    set (f := bulge (hd vdflt r)). set (s := shiftBulges f r).
    assert (Hs : rev s <> []).
    { intros H. apply (f_equal (@length _)) in H. rewrite rev_length in H. unfold s in H. rewrite shiftBulges_length in H.
      cbn in H. destruct r; [congruence|discriminate]. }
    assert (Bs : map bulge s = map Ropp (rotate1 (map bulge r))).
    { unfold s. rewrite shift_bulge by auto. destruct r; [congruence|]. reflexivity. }
    assert (Hf : bulge (hd vdflt (rev s)) :: tl (map bulge (rev s)) = map bulge (rev s)).
    { destruct (rev s); [congruence|]. reflexivity. }
    apply vertex_list_ext.
    + rewrite shift_pos, map_rev. unfold s. rewrite shift_pos. unfold r. rewrite map_rev, rev_involutive. reflexivity.
    + rewrite shift_bulge by auto.
      assert (Hrot : tl (map bulge (rev s)) ++ [bulge (hd vdflt (rev s))] = rotate1 (map bulge (rev s))).
      { destruct (rev s); [congruence|]. reflexivity. }
      rewrite Hrot, map_rev, Bs.
      assert (Er : map bulge vs = rev (map bulge r)) by (unfold r; rewrite map_rev, rev_involutive; reflexivity).
      rewrite Er. set (B := map bulge r). clear. destruct B as [|b B]; [reflexivity|]. cbn [rotate1].
      rewrite map_app, rev_app_distr. cbn [map rev app rotate1]. rewrite map_app. cbn [map].
      rewrite Ropp_involutive. rewrite <- map_rev, map_map. apply (f_equal (fun l => l ++ [b])).
      rewrite <- (map_id (rev B)) at 2.
      apply map_ext. intros. apply Ropp_involutive.
Qed.

Theorem C22_closed_flag_and_size (pl : polyline) :
  isClosed (invertDirection pl) = isClosed pl /\
  length (vertexes (invertDirection pl)) = length (vertexes pl) /\
  map pos (vertexes (invertDirection pl)) = if (length (vertexes pl) <? 2)%nat then map pos (vertexes pl) else rev (map pos (vertexes pl)).
Proof.
  unfold invertDirection, size. destruct (length (vertexes pl) <? 2)%nat; auto.
  cbn [isClosed vertexes]. rewrite shiftBulges_length, rev_length, shift_pos, map_rev. auto.
Qed.

(** *** sums over the segments *)
Definition sumR (l : list R) : R := fold_right Rplus 0 l.
Lemma sumR_cons x l : sumR (x :: l) = x + sumR l.
Proof. reflexivity. Qed.
Lemma sumR_app l l' : sumR (l ++ l') = sumR l + sumR l'.
Proof. induction l as [|x l IH]; cbn [app]; [unfold sumR at 2; cbn [fold_right]; lra|]. rewrite !sumR_cons, IH. lra. Qed.
Lemma sumR_perm l l' : Permutation l l' -> sumR l = sumR l'.
Proof. induction 1; rewrite ?sumR_cons; lra. Qed.
Lemma sumR_rev l : sumR (rev l) = sumR l.
Proof. symmetry. apply sumR_perm, Permutation_rev. Qed.
Lemma sumR_map_opp l : sumR (map Ropp l) = - sumR l.
Proof. induction l as [|x l IH]; cbn [map]; [unfold sumR; cbn [fold_right]; lra|]. rewrite !sumR_cons, IH. lra. Qed.
Lemma fold_sum {A} (f : A -> R) l st : fold_left (fun s e => s + f e) l st = st + sumR (map f l).
Proof.
  revert st. induction l as [|x l IH]; intros st; cbn [fold_left map]; [unfold sumR; cbn [fold_right]; lra|].
  rewrite IH, sumR_cons. lra.
Qed.
Lemma rotate1_perm {A} (l : list A) : Permutation (rotate1 l) l.
Proof. destruct l; auto. cbn [rotate1]. apply Permutation_sym, Permutation_cons_append. Qed.

(** additive functions of the traced segments, under inversion *)
Lemma trace_invert_perm pl : Permutation (trace (invertDirection pl)) (map rev3 (trace pl)).
Proof.
  destruct (isClosed pl) eqn:E.
  - rewrite C22_trace_closed by auto. eapply perm_trans; [apply rotate1_perm|]. apply Permutation_sym, Permutation_rev.
  - rewrite C22_trace_open by auto. apply Permutation_sym, Permutation_rev.
Qed.

Lemma visit_sum pl (f : vec * R * vec -> R) :
  sumR (map (fun e => f (seg3 e)) (vsegs pl)) = sumR (map f (trace pl)).
Proof.
  unfold trace. rewrite map_map. apply sumR_perm, Permutation_map, vsegs_perm.
Qed.

(** twice the signed area swept by one segment, as computed *)
Definition areaOf (e : vec * R * vec) : R :=
  let '(p, b, q) := e in snd (area_step (mkPline true [mkVtx p b; mkVtx q 0]) 0 0 1).

Lemma area_step_areaOf pl s i j : area_step pl s i j = (true, s + areaOf (seg3 (at_ pl i, at_ pl j))).
Proof.
  unfold areaOf, seg3, area_step, at_ at 4 5. cbn [nth vertexes fst snd].
  set (v1 := at_ pl i). set (v2 := at_ pl j). unfold at_. cbn [nth vertexes]. f_equal.
  unfold px, py, bulgeIsZero, bulgeIsNeg. cbn [pos bulge]. rcbn.
  rewrite Rplus_0_l. reflexivity.
Qed.

Lemma getArea_sum pl : isClosed pl = true -> getArea pl = sumR (map areaOf (trace pl)) / 2.
Proof.
  intros Hc. unfold getArea. rewrite Hc. cbn [negb orb]. unfold size.
  destruct (Nat.ltb_spec (length (vertexes pl)) 2) as [L|L].
  - unfold trace, pathSegs. destruct (vertexes pl) as [|a [|b l]]; cbn [length] in L; try lia; rcbn; unfold sumR; cbn [map fold_right]; lra.
  - rcbn. f_equal. rewrite <- (Rplus_0_l (sumR _)). rewrite <- visit_sum. rewrite <- (fold_sum (fun e => areaOf (seg3 e))).
    rewrite <- (visit_fold pl (fun s v1 v2 => s + areaOf (seg3 (v1, v2)))).
    rewrite !C21_visit_order. generalize (segs pl) 0. induction l as [|[i j] l IH]; intros s; cbn [foldStop]; auto.
    rewrite area_step_areaOf. auto.
Qed.

Lemma areaOf_rev e : areaOf (rev3 e) = - areaOf e.
Proof.
  destruct e as [[p b] q]. unfold areaOf, rev3, area_step, at_. cbn [nth vertexes snd].
  unfold px, py, bulgeIsZero, bulgeIsNeg, vlength, dot, vsub. cbn [pos bulge]. rcbn. rewrite Rabs_Ropp.
  replace ((vx p - vx q) * (vx p - vx q) + (vy p - vy q) * (vy p - vy q)) with
          ((vx q - vx p) * (vx q - vx p) + (vy q - vy p) * (vy q - vy p)) by ring.
  destruct (Rltb (Rabs b) (1 / 100000)) eqn:E; cbn [negb]; [ring|]. apply Rltb_false in E.
  destruct (Rltb b 0) eqn:E1, (Rltb (- b) 0) eqn:E2; rbool; try lra.
  - exfalso. assert (b = 0) by lra. subst b. rewrite Rabs_R0 in E. lra.
Qed.

Theorem C22_area_negated (pl : polyline) : getArea (invertDirection pl) = - getArea pl.
Proof.
  destruct (C22_closed_flag_and_size pl) as (Hc & Hl & _).
  destruct (isClosed pl) eqn:E.
  - rewrite !getArea_sum by auto. rewrite (sumR_perm _ _ (Permutation_map areaOf (trace_invert_perm pl))).
    rewrite map_map. rewrite (map_ext _ _ areaOf_rev). rewrite <- (map_map areaOf Ropp), sumR_map_opp. rfield.
  - unfold getArea. rewrite Hc, E. cbn [negb orb]. rcbn. lra.
Qed.

(** *** path length *)
Definition lengthOf (e : vec * R * vec) : R := let '(p, b, q) := e in segLength (mkVtx p b) (mkVtx q 0).

Lemma getPathLength_sum pl : getPathLength pl = sumR (map lengthOf (trace pl)).
Proof.
  unfold getPathLength, size. destruct (Nat.ltb_spec (length (vertexes pl)) 2) as [L|L].
  - unfold trace, pathSegs. destruct (vertexes pl) as [|a [|b l]]; cbn [length] in L; try lia; rcbn; reflexivity.
  - rewrite <- (Rplus_0_l (sumR _)). rewrite <- visit_sum. rewrite <- (fold_sum (fun e => lengthOf (seg3 e))).
    rewrite (visit_fold pl (fun s v1 v2 => s + segLength v1 v2)%t). rcbn. generalize (vsegs pl) 0.
    induction l as [|[a b] l IH]; intros s; cbn [fold_left fst snd]; auto.
Qed.

(** the length of an arc or line does not depend on the direction *)
Lemma lengthOf_rev e : (let '(p, b, q) := e in Rabs b <= 1) -> lengthOf (rev3 e) = lengthOf e.
Proof.
  destruct e as [[p b] q]. intros Hb. unfold lengthOf, rev3, segLength.
  cbn [pos]. assert (Ef : fuzzyEqual q p realThreshold = fuzzyEqual p q realThreshold).
  { apply eq_true_iff_eq. rewrite !fuzzyEqual_R. rewrite (Rabs_minus_sym (vx q)), (Rabs_minus_sym (vy q)). tauto. }
  rewrite Ef. destruct (fuzzyEqual p q realThreshold) eqn:F; auto.
  assert (Hne : p <> q).
  { intros E. apply (not_fuzzy_ne p q (1 / 100000000)); [lra|exact F|exact E]. }
  assert (Ez : bulgeIsZero (mkVtx q (- b)) = bulgeIsZero (mkVtx p b)).
  { unfold bulgeIsZero. cbn [bulge]. rcbn. now rewrite Rabs_Ropp. }
  rewrite Ez. destruct (bulgeIsZero (mkVtx p b)) eqn:Z.
  - unfold distSquared, dot, vsub. rcbn. f_equal. ring.
  - assert (Nl : ~ isLine (mkVtx p b)) by (now apply bulgeIsZero_false).
    assert (Nl' : ~ isLine (mkVtx q (- b))) by (now apply bulgeIsZero_false).
    assert (F' : fuzzyEqual q p realThreshold = false) by (now rewrite Ef).
    destruct (C16_segLength (mkVtx p b) (mkVtx q 0) F Hb) as [_ L1]. specialize (L1 Nl).
    destruct (C16_segLength (mkVtx q (- b)) (mkVtx p 0) F') as [_ L2]; [cbn [bulge]; now rewrite Rabs_Ropp|]. specialize (L2 Nl').
    unfold segLength in L1, L2. cbn [pos] in L1, L2. rewrite F in L1. rewrite F' in L2. rewrite Z in L1. rewrite Ez in L2.
    rewrite L1, L2. rewrite !radius_R. cbn [pos bulge]. rewrite Rabs_Ropp.
    assert (Es : sweep (- b) = - sweep b) by (unfold sweep; rewrite atan_opp; ring). rewrite Es, Rabs_Ropp.
    replace (chord q p) with (chord p q).
    2:{ unfold chord. f_equal. ring. }
    f_equal. f_equal. f_equal. ring.
Qed.

Theorem C22_path_length_kept (pl : polyline) : Forall (fun v => Rabs (bulge v) <= 1) (vertexes pl) ->
  getPathLength (invertDirection pl) = getPathLength pl.
Proof.
  intros Hb. rewrite !getPathLength_sum.
  rewrite (sumR_perm _ _ (Permutation_map lengthOf (trace_invert_perm pl))). rewrite map_map. f_equal.
  apply map_ext_in. intros [[p b] q] He. apply lengthOf_rev.
  unfold trace in He. apply in_map_iff in He. destruct He as ([v1 v2] & E & He).
  unfold seg3 in E. cbn [fst snd] in E. injection E as <- <- <-.
  assert (Hin : In v1 (vertexes pl)).
  { pose proof (Permutation_in _ (Permutation_sym (vsegs_perm pl)) He) as Hv.
    unfold vsegs in Hv. apply in_map_iff in Hv. destruct Hv as ([i j] & E & Hi). cbn [fst snd] in E. injection E as <- <-.
    apply C21_indices in Hi. apply nth_In. lia. }
  rewrite Forall_forall in Hb. auto.
Qed.

Example C22_example : trace (invertDirection (mkPline true [mkVertex 0 0 1; mkVertex 2 0 0; mkVertex 2 2 (1 / 2)])) =
  [(mkV 2 2, - 0, mkV 2 0); (mkV 2 0, - 1, mkV 0 0); (mkV 0 0, - (1 / 2), mkV 2 2)].
Proof. reflexivity. Qed.
