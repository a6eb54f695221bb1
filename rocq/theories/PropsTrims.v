(** * C51: trimming of joined arcs, and no repeated vertices in the raw offset polyline *)
From Coq Require Import ZArith Reals Lra Lia List Bool Arith Permutation.
From Verif Require Import Base Num MathUtils PlineSegment SpatialIndex Polyline Intersects Combine Offset RGeom Spec PropsMath ArcGeom Polar PropsSegment PropsClosest PropsIntr PropsPlineIntr PropsPolyline PropsCoincident PropsPlineIndex PropsSlices PropsRegion PropsPieces PropsOffsetSegs PropsOffsetSlices PropsRawOffset PropsCombine.
Import ListNotations.

(** ** no repeated vertices (any scalar implementation) *)
Section NoRepeat.
Context {RO : RealOps} {SL : StdLib}.

(** no vertex is within 1e-5 of the one before it *)
Fixpoint noRepeat (vs : list vertex) : Prop :=
  match vs with v :: ((w :: _) as t) => fuzzyEqual (pos v) (pos w) realPrecision = false /\ noRepeat t | _ => True end.

Lemma nr_app l w w' t : pos w = pos w' -> noRepeat (l ++ [w]) -> noRepeat (w' :: t) -> noRepeat (l ++ w' :: t).
Proof.
  intros E. induction l as [|x l IH]; intros H1 H2; [exact H2|]. destruct l as [|y l].
  - destruct H1 as [H1 _]. rewrite E in H1. split; [exact H1|exact H2].
  - cbn [app] in *. destruct H1 as [H1 H1']. split; [exact H1|]. apply IH; auto.
Qed.

Lemma nr_init l z : noRepeat (l ++ [z]) -> noRepeat l.
Proof. induction l as [|x [|y l] IH]; [intros; exact I|intros; exact I|]. cbn [app] in *. intros [H1 H2]. split; [auto|]. now apply IH. Qed.

Lemma nr_tl l : noRepeat l -> noRepeat (tl l).
Proof. destruct l as [|x [|y l]]; [auto|auto|]. intros [_ H]. exact H. Qed.

(** [r'] continues [r] without repeated vertices; the positions of the vertices of [r] are kept *)
Definition extends (r r' : polyline) : Prop :=
  exists l w w' t, vertexes r = l ++ [w] /\ vertexes r' = l ++ w' :: t /\ pos w' = pos w.

Lemma ext_add r v : vertexes r <> [] -> noRepeat (vertexes r) -> noRepeat (vertexes (addOrReplaceIfSamePos r v)) /\ extends r (addOrReplaceIfSamePos r v).
Proof.
  intros Hne H. destruct (exists_last Hne) as (l & w & E). unfold addOrReplaceIfSamePos. rewrite E, rev_app_distr. cbn [rev app].
  destruct (fuzzyEqual (pos w) (pos v) realPrecision) eqn:Ef; unfold addVertex; cbn [vertexes]; rewrite ?rev_involutive, ?E.
  - split; [apply (nr_app l w); [reflexivity|now rewrite <- E|exact I]|]. exists l, w, (setBulge w (bulge v)), []. cbn [vertexes]. auto.
  - split; [rewrite <- app_assoc; cbn [app]; apply (nr_app l w w); [reflexivity|now rewrite <- E|split; [exact Ef|exact I]]|]. exists l, w, w, [v]. cbn [vertexes]. rewrite <- app_assoc. auto.
Qed.

Lemma ext_trans a b c : extends a b -> extends b c -> extends a c.
Proof.
  intros (l & w & w' & t & Ea & Eb & E1) (l2 & y & y' & t2 & Eb2 & Ec & E2).
  destruct (exists_last (l := w' :: t) ltac:(discriminate)) as (t' & z & Et). rewrite Eb, Et, app_assoc in Eb2. apply app_inj_tail in Eb2. destruct Eb2 as [<- ->].
  destruct t' as [|w2 t'].
  - cbn [app] in Et. injection Et as -> ->. exists l, w, y', t2. rewrite app_nil_r in Ec. split; [auto|]. split; [auto|congruence].
  - cbn [app] in Et. injection Et as -> Et. exists l, w, w2, (t' ++ y' :: t2). split; [auto|]. split; [|auto]. rewrite Ec, <- app_assoc. reflexivity.
Qed.

Lemma ext_ne r r' : extends r r' -> vertexes r' <> [].
Proof. intros (l & w & w' & t & _ & -> & _) Z. apply app_eq_nil in Z. destruct Z; discriminate. Qed.

Definition step (r r' : polyline) : Prop := noRepeat (vertexes r') /\ extends r r'.

Lemma step_trim c v2 p r r' : vertexes r <> [] -> noRepeat (vertexes r) -> trimPrev c v2 p r = Ok r' -> step r r'.
Proof.
  intros Hne H E. destruct (get_last r Hne) as (l & w & Ev & El & Es). unfold trimPrev in E. rewrite El in E. cbn [bind] in E.
  assert (S0 : step r r) by (split; [auto|]; exists l, w, w, []; auto).
  destruct (_ && _); [|injection E as <-; exact S0]. destruct (Bool.eqb _ _); [|injection E as <-; exact S0].
  rewrite Es in E. injection E as <-. split; cbn [vertexes].
  - apply (nr_app l w); [reflexivity|now rewrite <- Ev|exact I].
  - exists l, w, (setBulge w (ttan (deltaAngle (angle (center (arcRadiusAndCenter w v2)) (pos w)) (angle c p) / t4)%t)), []. auto.
Qed.

Lemma step_join ccw s1 s2 r r' : vertexes r <> [] -> noRepeat (vertexes r) -> joinSegs ccw s1 s2 r = Ok r' -> step r r'.
Proof.
  intros Hne H.
  assert (A1 : forall r0 v, vertexes r0 <> [] -> noRepeat (vertexes r0) -> step r0 (addOrReplaceIfSamePos r0 v)) by (intros; now apply ext_add).
  assert (A2 : forall v w, step r (addOrReplaceIfSamePos (addOrReplaceIfSamePos r v) w)).
  { intros v w. destruct (A1 r v Hne H) as [N1 X1]. destruct (A1 _ w (ext_ne _ _ X1) N1) as [N2 X2]. split; [auto|]. eapply ext_trans; eauto. }
  assert (T : forall c v2 p w r2, (let! r0 := trimPrev c v2 p r in Ok (addOrReplaceIfSamePos r0 w)) = Ok r2 -> step r r2).
  { intros c v2 p w r2 E. apply bind_inv in E. destruct E as (r0 & Et & E). injection E as <-. destruct (step_trim _ _ _ _ _ Hne H Et) as [N1 X1].
    destruct (A1 r0 w (ext_ne _ _ X1) N1) as [N2 X2]. split; [auto|]. eapply ext_trans; eauto. }
  assert (B1 : forall v, step r (addOrReplaceIfSamePos r v)) by auto.
  assert (O : forall x, step r x -> Ok x = Ok r' -> step r r') by (intros x Hx E; injection E as <-; exact Hx).
  unfold joinSegs. destruct (bulgeIsZero (osV1 s1)), (bulgeIsZero (osV1 s2)); cbn [andb].
  - apply O. unfold lineToLineJoin, connectUsingArc. destruct (_ || _); [auto|]. destruct (intrLineSeg2LineSeg2 _ _ _ _); auto. destruct (_ && _); auto.
  - apply O. unfold lineToArcJoin, connectUsingArc.
    match goal with |- context [match intrLineSeg2Circle2 ?a ?b ?c ?d with _ => _ end] => destruct (intrLineSeg2Circle2 a b c d) as [|t|t t'] end; [auto| |destruct (tltb _ _)];
      repeat match goal with |- step _ (if ?b then _ else _) => destruct b end; auto.
  - unfold arcToLineJoin, connectUsingArc.
    match goal with |- context [match intrLineSeg2Circle2 ?a ?b ?c ?d with _ => _ end] => destruct (intrLineSeg2Circle2 a b c d) as [|t|t t'] end; [apply O; auto| |destruct (tltb _ _)];
      match goal with |- context [if ?b then bind _ _ else _] => destruct b end; first [apply T | apply O; auto].
  - unfold arcToArcJoin, connectUsingArc.
    match goal with |- context [match intrCircle2Circle2 ?a ?b ?c ?d with _ => _ end] => destruct (intrCircle2Circle2 a b c d) as [|p|p q|] end; [apply O; auto| |destruct (tltb _ _)|apply O; auto];
      match goal with |- context [if ?b then bind _ _ else _] => destruct b end; first [apply T | apply O; auto].
Qed.

Lemma step_all ccw rest : forall prev r r', vertexes r <> [] -> noRepeat (vertexes r) -> joinAll ccw prev rest r = Ok r' -> step r r'.
Proof.
  induction rest as [|s rest IH]; intros prev r r' Hne H E; cbn [joinAll] in E.
  - injection E as <-. split; [auto|]. destruct (exists_last Hne) as (l & w & Ev). exists l, w, w, []. auto.
  - apply bind_inv in E. destruct E as (r1 & E1 & E). destruct (step_join _ _ _ _ _ Hne H E1) as [N1 X1]. destruct (IH s r1 r' (ext_ne _ _ X1) N1 E) as [N2 X2]. split; [auto|]. eapply ext_trans; eauto.
Qed.

Lemma close_nr ccw replaced sl sf r r' : (2 <= length (vertexes r))%nat -> noRepeat (vertexes r) -> closeRaw ccw replaced sl sf r = Ok r' -> noRepeat (vertexes r').
Proof.
  intros Hn H E. assert (Hne : vertexes r <> []) by (intros Z; rewrite Z in Hn; cbn in Hn; lia).
  destruct (get_last r Hne) as (l & w & Ev & El & Es). unfold closeRaw in E. rewrite El in E. cbn [bind] in E.
  apply bind_inv in E. destruct E as (cl & Ej & E).
  destruct (step_join _ _ _ _ _ (ltac:(discriminate) : vertexes (mkPline false [w]) <> []) I Ej) as [Ncl (l9 & w9 & w'' & t9 & E9 & Ecl & Epw)]. cbn [vertexes] in E9.
  destruct l9 as [|? l9]; [|destruct l9; discriminate]. cbn [app] in E9, Ecl. injection E9 as <-.
  rewrite (vget_at cl 0) in E by (rewrite Ecl; cbn; lia). cbn [bind] in E. assert (E0 : at_ cl 0 = w'') by (unfold at_; now rewrite Ecl). rewrite E0, Es in E. cbn [bind isClosed vertexes] in E. rewrite Ecl in E. cbn [tl] in E.
  rewrite <- app_assoc in E. cbn [app] in E.
  assert (Nall : noRepeat (l ++ w'' :: t9)) by (apply (nr_app l w); [congruence|now rewrite <- Ev|now rewrite <- Ecl]).
  assert (Hl : l <> []) by (intros ->; rewrite Ev in Hn; cbn in Hn; lia). destruct l as [|h l]; [contradiction|].
  destruct (exists_last (l := w'' :: t9) ltac:(discriminate)) as (m & z & Em). rewrite Em in *. rewrite app_assoc in *. apply nr_init in Nall.
  unfold popBack in E. cbn [vertexes] in E. rewrite rev_app_distr in E. cbn [rev app bind] in E. cbn [isClosed] in E.
  change (rev ((rev (l ++ m)) ++ [h])) with (rev (rev ((h :: l) ++ m))) in E. rewrite rev_involutive in E. cbn [app] in E, Nall.
  apply bind_inv in E. destruct E as (r2 & E2 & E).
  assert (Hr2 : exists h', vertexes r2 = h' :: l ++ m).
  { destruct (negb replaced); [|injection E2 as <-; eexists; reflexivity]. apply bind_inv in E2. destruct E2 as (cv & _ & E2).
    rewrite vget_at in E2 by (cbn; lia). cbn [bind] in E2. unfold at_ in E2. cbn [vertexes nth] in E2.
    destruct (bulgeIsZero h).
    - rewrite rset_ok in E2 by (cbn; lia). cbn [bind upd] in E2. injection E2 as <-. eexists. reflexivity.
    - destruct (1 <? _)%nat; [|injection E2 as <-; eexists; reflexivity]. apply bind_inv in E2. destruct E2 as (rv & _ & E2).
      rewrite rset_ok in E2 by (cbn; lia). cbn [bind upd] in E2. injection E2 as <-. eexists. reflexivity. }
  destruct Hr2 as (h' & Er2). unfold size in E. destruct (Nat.ltb_spec 1 (length (vertexes r2))) as [L|L].
  - rewrite !vget_at in E by lia. cbn [bind] in E. unfold at_ in E. rewrite Er2 in E. destruct (l ++ m) as [|x T] eqn:ET; [rewrite Er2 in L; cbn in L; lia|]. cbn [nth] in E.
    destruct (fuzzyEqual (pos h') (pos x) realPrecision) eqn:Ef; injection E as <-; cbn [vertexes tl].
    + exact (proj2 Nall).
    + rewrite Er2. split; [exact Ef|exact (proj2 Nall)].
  - injection E as <-. rewrite Er2 in *. cbn [length] in L. destruct (l ++ m); [exact I|cbn in L; lia].
Qed.

(** no vertex of the raw offset polyline is within 1e-5 of the one before it *)
Theorem C51_no_repeats (pl raw : polyline) (offset : T) : createRawOffsetPline pl offset = Ok raw -> noRepeat (vertexes raw).
Proof.
  unfold createRawOffsetPline. destruct (size pl <? 2)%nat; [intros E; injection E as <-; exact I|].
  intros E. apply bind_inv in E. destruct E as (segs & _ & E). destruct segs as [|s0 rest]; [injection E as <-; exact I|].
  destruct (_ && _); [injection E as <-; exact I|]. apply bind_inv in E. destruct E as ([r1 b] & E1 & E).
  assert (N1 : noRepeat (vertexes r1) /\ vertexes r1 <> []).
  { destruct rest as [|s1 rest]; [injection E1 as <- <-; split; [exact I|discriminate]|]. apply bind_inv in E1. destruct E1 as (ra & Ea & E1). apply bind_inv in E1. destruct E1 as (rb & Eb & E1). injection E1 as <- <-.
    destruct (step_join _ _ _ _ _ (ltac:(discriminate) : vertexes (mkPline (isClosed pl) [osV1 s0]) <> []) I Ea) as [Na Xa].
    destruct (step_all _ _ _ _ _ (ext_ne _ _ Xa) Na Eb) as [Nb Xb]. split; [auto|]. now apply (ext_ne _ _ Xb). }
  destruct N1 as [N1 Ne1]. apply bind_inv in E. destruct E as (r2 & E2 & E).
  assert (N2 : noRepeat (vertexes r2)).
  { destruct (isClosed pl && (1 <? size r1)%nat) eqn:Ec.
    - apply andb_true_iff in Ec. destruct Ec as [_ Ec]. apply Nat.ltb_lt in Ec. unfold size in Ec. now apply (close_nr _ _ _ _ r1 r2 ltac:(lia) N1 E2).
    - injection E2 as <-. now apply ext_add. }
  injection E as <-. destruct (size r2 =? 1)%nat; [exact I|exact N2].
Qed.
End NoRepeat.

(** ** trimming arcs at a join *)
Open Scope R_scope.

Lemma tan_quarter x : - PI <= x <= PI -> sweep (tan (x / 4)) = x.
Proof. intros H. pose proof PI_RGT_0. unfold sweep. rewrite atan_tan; lra. Qed.

(** an arc whose start is moved along it to one of its points: the new vertex begins the rest of the arc *)
Theorem C51_trim_start (u1 u2 : vertex) (c : vec) (t : R) : ~ isLine u1 -> Rabs (bulge u1) <= 1 -> pos u1 <> pos u2 ->
  arcCentre (pos u1) (pos u2) (bulge u1) c -> 0 <= t < 1 ->
  let p := rot c (t * sweep (bulge u1)) (pos u1) in let v := trimmedArcVertex c u1 u2 p in
  pos v = p /\ sweep (bulge v) = (1 - t) * sweep (bulge u1) /\ arcCentre p (pos u2) (bulge v) c /\
  (~ isLine v -> forall s q, segPoint v u2 s q <-> segPoint u1 u2 (t + s * (1 - t)) q).
Proof.
  intros Hl Hb Hne Hc Ht p v. pose proof PI_RGT_0 as HP. pose proof (notLine_ne _ Hl) as Nb.
  assert (Ec : c = ctr (pos u1) (pos u2) (bulge u1)) by (now apply ctr_unique).
  set (S := sweep (bulge u1)) in *. assert (BS : - PI <= S <= PI) by (now apply sweep_le_pi).
  assert (Nc : pos u1 <> c) by (rewrite Ec; intros Z; apply (ctr_ne (pos u1) (pos u2) _ Nb Hne); auto).
  assert (Ep2 : pos u2 = rot c ((1 - t) * S) p) by (unfold p; rewrite rot_rot; replace ((1 - t) * S + t * S) with S by ring; symmetry; exact Hc).
  assert (Np : p <> c) by (apply dist_pos_ne; unfold p; rewrite dist_rot; apply dist_pos; intros Z; apply Nc; auto).
  assert (Sgn : (0 < bulge u1 /\ 0 < S) \/ (bulge u1 < 0 /\ S < 0)).
  { destruct (Rtotal_order (bulge u1) 0) as [L|[L|L]]; [right; split; [auto|now apply sweep_neg]|contradiction|left; split; [auto|now apply sweep_pos]]. }
  assert (Main : pos v = p /\ sweep (bulge v) = (1 - t) * S).
  { unfold v, trimmedArcVertex. rewrite Ep2. destruct (Req_dec ((1 - t) * S) (- PI)) as [Z|Z].
    - (* the whole clockwise half circle *)
      assert (t = 0) by nra. subst t. assert (ES : S = - PI) by lra.
      assert (D : deltaAngle (angle c p) (angle c (rot c ((1 - 0) * S) p)) = PI).
      { rewrite ES. rewrite (rot_congruent c ((1 - 0) * - PI) PI) by (exists 1%Z; simpl; lra). apply delta_rot_eq; [auto|lra]. }
      match goal with |- context [deltaAngle ?x ?y] => replace (deltaAngle x y) with PI by (symmetry; exact D) end.
      assert (bulgeIsPos u1 = false) as -> by (unfold bulgeIsPos; rcbn; apply Rltb_false; destruct Sgn; lra).
      rcbn. rewrite (proj2 (Rltb_spec 0 PI) HP). cbn [Bool.eqb pos bulge]. split; [reflexivity|]. fold S. lra.
    - assert (D : deltaAngle (angle c p) (angle c (rot c ((1 - t) * S) p)) = (1 - t) * S) by (apply delta_rot_eq; [auto|nra]).
      match goal with |- context [deltaAngle ?x ?y] => replace (deltaAngle x y) with ((1 - t) * S) by (symmetry; exact D) end.
      unfold bulgeIsPos. rcbn. assert (E : Bool.eqb (Rltb 0 ((1 - t) * S)) (Rltb 0 (bulge u1)) = true).
      { destruct Sgn as [[B1 B2]|[B1 B2]].
        - rewrite (proj2 (Rltb_spec 0 (bulge u1)) B1), (proj2 (Rltb_spec 0 ((1 - t) * S))) by nra. reflexivity.
        - rewrite (proj2 (Rltb_false 0 (bulge u1))), (proj2 (Rltb_false 0 ((1 - t) * S))) by nra. reflexivity. }
      rewrite E. cbn [pos bulge]. split; [reflexivity|]. apply tan_quarter. nra. }
  destruct Main as [M1 M2]. split; [auto|]. split; [auto|].
  assert (Ha : arcCentre p (pos u2) (bulge v) c) by (unfold arcCentre; rewrite M2; symmetry; exact Ep2).
  split; [auto|]. intros Lv s q. rewrite (segPoint_arc v u2 s q Lv), (segPoint_arc u1 u2 _ q Hl), <- Ec.
  rewrite M1, <- (ctr_unique p (pos u2) (bulge v) c (notLine_ne _ Lv) Ha), M2. unfold p at 1. rewrite rot_rot. fold S.
  replace (s * ((1 - t) * S) + t * S) with ((t + s * (1 - t)) * S) by ring. reflexivity.
Qed.

(** an arc whose end is moved back along it: the bulge of the vertex before is adjusted so that it traces the first part of the arc *)
Theorem C51_trim_end (r : polyline) (l : list vertex) (w v2 : vertex) (c : vec) (t : R) : vertexes r = l ++ [w] ->
  ~ isLine w -> Rabs (bulge w) <= 1 -> fuzzyEqual (pos w) (pos v2) (1 / 100000000) = false ->
  arcCentre (pos w) (pos v2) (bulge w) c -> 0 < t <= 1 ->
  let p := rot c (t * sweep (bulge w)) (pos w) in
  exists b, trimPrev c v2 p r = Ok (mkPline (isClosed r) (l ++ [mkVtx (pos w) b])) /\ sweep b = t * sweep (bulge w) /\ arcCentre (pos w) p b c /\
    forall x, pos x = p -> let v := mkVtx (pos w) b in ~ isLine v -> forall s q, segPoint v x s q <-> segPoint w v2 (s * t) q.
Proof.
  intros Ev Hl Hb Hf Hc Ht p. pose proof PI_RGT_0 as HP. pose proof (notLine_ne _ Hl) as Nb.
  assert (Hne : pos w <> pos v2) by (apply (not_fuzzy_ne _ _ (1 / 100000000)); [lra|exact Hf]).
  assert (Ec : c = ctr (pos w) (pos v2) (bulge w)) by (now apply ctr_unique).
  set (S := sweep (bulge w)) in *. assert (BS : - PI <= S <= PI) by (now apply sweep_le_pi).
  assert (Nc : pos w <> c) by (rewrite Ec; intros Z; apply (ctr_ne (pos w) (pos v2) _ Nb Hne); auto).
  assert (Sgn : (0 < bulge w /\ 0 < S) \/ (bulge w < 0 /\ S < 0)).
  { destruct (Rtotal_order (bulge w) 0) as [L|[L|L]]; [right; split; [auto|now apply sweep_neg]|contradiction|left; split; [auto|now apply sweep_pos]]. }
  assert (Main : exists b, trimPrev c v2 p r = Ok (mkPline (isClosed r) (l ++ [mkVtx (pos w) b])) /\ sweep b = t * S).
  { unfold trimPrev. assert (Hn : vertexes r <> []) by (rewrite Ev; intros Z; apply app_eq_nil in Z; destruct Z; discriminate).
    destruct (get_last r Hn) as (l1 & w1 & E1 & El & Es). rewrite Ev in E1. apply app_inj_tail in E1. destruct E1 as [<- <-]. rewrite El. cbn [bind].
    rewrite (proj2 (bulgeIsZero_false w) Hl). assert (Ef : fuzzyEqual (pos w) (pos v2) realThreshold = false) by (rewrite thr_R; exact Hf). rewrite Ef. cbn [negb andb].
    rewrite center_R, <- Ec by auto.
    assert (Keep : Ok r = Ok (mkPline (isClosed r) (l ++ [mkVtx (pos w) (bulge w)]))) by (f_equal; destruct r as [cl vs]; cbn [isClosed vertexes] in *; rewrite Ev; destruct w; reflexivity).
    destruct (Req_dec (t * S) (- PI)) as [Z|Z].
    - assert (t = 1) by nra. subst t. assert (ES : S = - PI) by lra.
      assert (D : deltaAngle (angle c (pos w)) (angle c p) = PI).
      { unfold p. rewrite ES. rewrite (rot_congruent c (1 * - PI) PI) by (exists 1%Z; simpl; lra). apply delta_rot_eq; [auto|lra]. }
      match goal with |- context [deltaAngle ?x ?y] => replace (deltaAngle x y) with PI by (symmetry; exact D) end.
      assert (bulgeIsPos w = false) as -> by (unfold bulgeIsPos; rcbn; apply Rltb_false; destruct Sgn; lra).
      rcbn. rewrite (proj2 (Rltb_spec 0 PI) HP). cbn [Bool.eqb]. exists (bulge w). split; [exact Keep|]. fold S. lra.
    - assert (D : deltaAngle (angle c (pos w)) (angle c p) = t * S) by (apply delta_rot_eq; [auto|nra]).
      match goal with |- context [deltaAngle ?x ?y] => replace (deltaAngle x y) with (t * S) by (symmetry; exact D) end.
      unfold bulgeIsPos. rcbn. assert (E : Bool.eqb (Rltb 0 (t * S)) (Rltb 0 (bulge w)) = true).
      { destruct Sgn as [[B1 B2]|[B1 B2]].
        - rewrite (proj2 (Rltb_spec 0 (bulge w)) B1), (proj2 (Rltb_spec 0 (t * S))) by nra. reflexivity.
        - rewrite (proj2 (Rltb_false 0 (bulge w))), (proj2 (Rltb_false 0 (t * S))) by nra. reflexivity. }
      rewrite E, Es. eexists. split; [reflexivity|]. apply tan_quarter. nra. }
  destruct Main as (b & Mb & Sb). exists b. split; [exact Mb|]. split; [exact Sb|].
  assert (Ha : arcCentre (pos w) p b c) by (unfold arcCentre; rewrite Sb; reflexivity).
  split; [exact Ha|]. intros x Ex v Lv s q. rewrite (segPoint_arc v x s q Lv), (segPoint_arc w v2 _ q Hl), <- Ec. unfold v. cbn [pos bulge]. rewrite Ex.
  rewrite <- (ctr_unique (pos w) p b c (notLine_ne _ Lv) Ha), Sb. fold S. replace (s * (t * S)) with (s * t * S) by ring. reflexivity.
Qed.

(** the closing join of a closed polyline moves the first vertex along its arc: it begins the rest of that arc *)
Theorem C51_trim_first ccw sl sf (r cl : polyline) (l m rest : list vertex) (lv z u1 u2 : vertex) (c : vec) (t : R) :
  vertexes r = l ++ [lv] -> joinSegs ccw sl sf (mkPline false [lv]) = Ok cl -> vertexes cl = m ++ [z] -> l ++ m = u1 :: u2 :: rest ->
  ~ isLine u1 -> Rabs (bulge u1) <= 1 -> pos u1 <> pos u2 -> arcCentre (pos u1) (pos u2) (bulge u1) c -> 0 <= t < 1 ->
  pos z = rot c (t * sweep (bulge u1)) (pos u1) -> fuzzyEqual (pos z) (pos u2) (1 / 100000) = false ->
  exists v, closeRaw ccw false sl sf r = Ok (mkPline (isClosed r) (v :: u2 :: rest)) /\ pos v = pos z /\ arcCentre (pos z) (pos u2) (bulge v) c /\
    (~ isLine v -> forall s q, segPoint v u2 s q <-> segPoint u1 u2 (t + s * (1 - t)) q).
Proof.
  intros Ev Ej Ec Em Hl Hb Hne Hc Ht Ez Hf. unfold closeRaw.
  destruct (get_last r) as (l1 & w1 & E1 & El & Es); [rewrite Ev; intros Z; apply app_eq_nil in Z; destruct Z; discriminate|].
  rewrite Ev in E1. apply app_inj_tail in E1. destruct E1 as [<- <-]. rewrite El. cbn [bind]. rewrite Ej. cbn [bind].
  destruct (vertexes cl) as [|c0 ct] eqn:Ecl; [symmetry in Ec; apply app_eq_nil in Ec; destruct Ec; discriminate|]. rewrite (vget_at cl 0) by (rewrite Ecl; cbn; lia). cbn [bind].
  assert (at_ cl 0 = c0) as -> by (unfold at_; now rewrite Ecl). rewrite Es. cbn [bind isClosed vertexes tl].
  assert (Eapp : (l ++ [c0]) ++ ct = (u1 :: u2 :: rest) ++ [z]) by (rewrite <- Em, <- !app_assoc; cbn [app]; now rewrite Ec).
  rewrite Eapp. unfold popBack. cbn [vertexes isClosed]. rewrite rev_app_distr. change (rev [z]) with [z]. cbn [app bind negb]. rewrite rev_involutive.
  destruct (get_last cl) as (l2 & w2 & E2 & El2 & _); [rewrite Ecl; discriminate|]. rewrite Ecl, Ec in E2. apply app_inj_tail in E2. destruct E2 as [_ <-]. rewrite El2. cbn [bind].
  rewrite !vget_at by (cbn [vertexes length]; lia). cbn [bind]. change (at_ (mkPline (isClosed r) (u1 :: u2 :: rest)) 0) with u1. change (at_ (mkPline (isClosed r) (u1 :: u2 :: rest)) 1) with u2.
  rewrite (proj2 (bulgeIsZero_false u1) Hl). unfold size at 1. cbn [vertexes length Nat.ltb Nat.leb]. cbn [bind].
  pose proof PI_RGT_0 as HP. pose proof (notLine_ne _ Hl) as Nb.
  assert (Ecc : c = ctr (pos u1) (pos u2) (bulge u1)) by (now apply ctr_unique).
  rewrite center_R, <- Ecc by auto.
  set (S := sweep (bulge u1)) in *. assert (BS : - PI <= S <= PI) by (now apply sweep_le_pi).
  assert (Nc : pos u1 <> c) by (rewrite Ecc; intros Z; apply (ctr_ne (pos u1) (pos u2) _ Nb Hne); auto).
  assert (Ep2 : pos u2 = rot c ((1 - t) * S) (pos z)) by (rewrite Ez; rewrite rot_rot; replace ((1 - t) * S + t * S) with S by ring; symmetry; exact Hc).
  assert (Np : pos z <> c) by (apply dist_pos_ne; rewrite Ez, dist_rot; apply dist_pos; intros Z; apply Nc; auto).
  assert (Sgn : (0 < bulge u1 /\ 0 < S) \/ (bulge u1 < 0 /\ S < 0)).
  { destruct (Rtotal_order (bulge u1) 0) as [L|[L|L]]; [right; split; [auto|now apply sweep_neg]|contradiction|left; split; [auto|now apply sweep_pos]]. }
  match goal with |- context [rset _ 0 ?v] => set (nv := v) end.
  assert (Main : pos nv = pos z /\ sweep (bulge nv) = (1 - t) * S).
  { unfold nv. clear nv. rewrite Ep2. destruct (Req_dec ((1 - t) * S) (- PI)) as [Z|Z].
    - assert (t = 0) by nra. subst t. assert (ES : S = - PI) by lra.
      assert (D : deltaAngle (angle c (pos z)) (angle c (rot c ((1 - 0) * S) (pos z))) = PI).
      { rewrite ES. rewrite (rot_congruent c ((1 - 0) * - PI) PI) by (exists 1%Z; simpl; lra). apply delta_rot_eq; [auto|lra]. }
      match goal with |- context [deltaAngle ?x ?y] => replace (deltaAngle x y) with PI by (symmetry; exact D) end.
      assert (bulgeIsPos u1 = false) as -> by (unfold bulgeIsPos; rcbn; apply Rltb_false; destruct Sgn; lra).
      assert (bulgeIsNeg u1 = true) as -> by (unfold bulgeIsNeg; rcbn; apply Rltb_spec; destruct Sgn; lra).
      rcbn. rewrite (proj2 (Rltb_spec 0 PI) HP), andb_false_r. cbn [orb andb setPos pos bulge]. split; [reflexivity|]. fold S. lra.
    - assert (D : deltaAngle (angle c (pos z)) (angle c (rot c ((1 - t) * S) (pos z))) = (1 - t) * S) by (apply delta_rot_eq; [auto|nra]).
      match goal with |- context [deltaAngle ?x ?y] => replace (deltaAngle x y) with ((1 - t) * S) by (symmetry; exact D) end.
      unfold bulgeIsPos, bulgeIsNeg. rcbn. assert (E : (Rltb ((1 - t) * S) 0 && Rltb 0 (bulge u1)) || (Rltb 0 ((1 - t) * S) && Rltb (bulge u1) 0) = false).
      { destruct Sgn as [[B1 B2]|[B1 B2]].
        - rewrite (proj2 (Rltb_false ((1 - t) * S) 0)), (proj2 (Rltb_false (bulge u1) 0)) by nra. cbn [andb orb]. apply andb_false_r.
        - rewrite (proj2 (Rltb_false 0 (bulge u1))), (proj2 (Rltb_false 0 ((1 - t) * S))) by nra. rewrite andb_false_r. reflexivity. }
      rewrite E. cbn [pos bulge]. split; [reflexivity|]. apply tan_quarter. nra. }
  clearbody nv. destruct Main as [M1 M2]. exists nv. rewrite rset_ok by (cbn; lia). cbn [bind upd isClosed vertexes]. unfold size. cbn [vertexes length Nat.ltb Nat.leb].
  rewrite !vget_at by (cbn [vertexes length]; lia). cbn [bind]. change (at_ (mkPline (isClosed r) (nv :: u2 :: rest)) 0) with nv. change (at_ (mkPline (isClosed r) (nv :: u2 :: rest)) 1) with u2.
  assert (Ef : fuzzyEqual (pos nv) (pos u2) realPrecision = false) by (rewrite prec_R, M1; exact Hf). rewrite Ef. split; [reflexivity|]. split; [auto|].
  assert (Ha : arcCentre (pos z) (pos u2) (bulge nv) c) by (unfold arcCentre; rewrite M2; symmetry; exact Ep2).
  split; [auto|]. intros Lv s q. rewrite (segPoint_arc nv u2 s q Lv), (segPoint_arc u1 u2 _ q Hl), <- Ecc.
  rewrite M1, <- (ctr_unique (pos z) (pos u2) (bulge nv) c (notLine_ne _ Lv) Ha), M2. rewrite Ez, rot_rot. fold S.
  replace (s * ((1 - t) * S) + t * S) with ((t + s * (1 - t)) * S) by ring. reflexivity.
Qed.

(** a half circle about the origin meets the hypotheses of the trim theorems *)
Example C51_trim_half : let u1 := mkVertex 1 0 1 in let u2 := mkVertex (-1) 0 0 in
  ~ isLine u1 /\ Rabs (bulge u1) <= 1 /\ pos u1 <> pos u2 /\ arcCentre (pos u1) (pos u2) (bulge u1) (mkV 0 0) /\
  fuzzyEqual (pos u1) (pos u2) (1 / 100000000) = false.
Proof.
  intros u1 u2. unfold u1, u2. cbn [mkVertex pos bulge]. split; [intros L; unfold isLine in L; assert (EB : bulge (mkVertex 1 0 1) = 1) by reflexivity; rewrite EB, Rabs_R1 in L; lra|]. split; [rewrite Rabs_R1; lra|].
  split; [intros E; injection E; lra|]. split.
  - unfold arcCentre, sweep. rewrite atan_1. replace (4 * (PI / 4)) with PI by field. unfold rot. cbn [vx vy]. rewrite cos_PI, sin_PI. apply vec_eq; cbn [vx vy]; rring.
  - apply not_true_is_false. intros E. apply fuzzyEqual_R in E. cbn [vx vy] in E. destruct E as [E _]. rewrite Rabs_right in E; lra.
Qed.
