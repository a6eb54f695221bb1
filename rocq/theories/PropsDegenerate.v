(** Segments that are a single point (C17), grown boxes (C15). *)
From Coq Require Import Reals Lra Bool.
From Verif Require Import Base Num MathUtils PlineSegment RGeom Spec PropsMath ArcGeom PropsSegment PropsClosest PropsIntr.
Open Scope R_scope.

(** [x] is less than [eps] beyond the span of [a] and [b] *)
Definition nearSpan (x a b : R) : Prop := exists s, 0 <= s <= 1 /\ Rabs (x - (a + s * (b - a))) < eps.

(** the point [p] is by the segment [a] [b]: measured along x, along y when the segment is vertical up to the tolerance *)
Definition bySegment (p a b : vec) : Prop :=
  (eps <= Rabs (vx a - vx b) /\ nearSpan (vx p) (vx a) (vx b)) \/
  (Rabs (vx a - vx b) < eps /\ nearSpan (vy p) (vy a) (vy b)).

Lemma span_le x a b : a <= b -> (nearSpan x a b <-> a - eps < x < b + eps).
Proof.
  intros L. pose proof eps_pos as He. split.
  - intros (s & Hs & D). apply Rabs_def2 in D. assert (0 <= s * (b - a) <= b - a) by (split; [apply Rmult_le_pos; lra|rewrite <- (Rmult_1_l (b - a)) at 2; apply Rmult_le_compat_r; lra]). lra.
  - intros Hx. destruct (Rle_lt_dec x a) as [La|La]; [exists 0; split; [lra|]; apply Rabs_def1; lra|].
    destruct (Rle_lt_dec b x) as [Lb|Lb]; [exists 1; split; [lra|]; apply Rabs_def1; lra|].
    exists ((x - a) / (b - a)). split.
    + split; [apply Rmult_le_pos; [lra|left; apply Rinv_0_lt_compat; lra]|]. apply Rmult_le_reg_r with (b - a); [lra|]. unfold Rdiv. rewrite Rmult_assoc, Rinv_l by lra. lra.
    + replace (x - (a + (x - a) / (b - a) * (b - a))) with 0 by (field; lra). rewrite Rabs_R0. lra.
Qed.

Lemma span_sym x a b : nearSpan x a b <-> nearSpan x b a.
Proof.
  assert (forall u v, nearSpan x u v -> nearSpan x v u); [|split; auto].
  intros u v (s & Hs & D). exists (1 - s). split; [lra|]. replace (v + (1 - s) * (u - v)) with (u + s * (v - u)) by ring. exact D.
Qed.

Lemma in_span x a b : (let '(mn, mx) := tminmax a b in fuzzyInRange mn x mx realThreshold) = true <-> nearSpan x a b.
Proof.
  unfold tminmax, fuzzyInRange. rewrite thr_R. change (1 / 100000000) with eps. rcbn. destruct (Rltb b a) eqn:E; rbool.
  - rewrite span_sym, span_le by lra. rewrite andb_true_iff, !Rltb_spec. lra.
  - rewrite span_le by lra. rewrite andb_true_iff, !Rltb_spec. lra.
Qed.

Lemma in_seg p a b : isInSegment p a b = true <-> bySegment p a b.
Proof.
  unfold isInSegment, bySegment, fuzzyEqualR. rewrite thr_R. change (1 / 100000000) with eps. change (fun x y : T => tabs (x - y)) with (fun x y : R => Rabs (x - y)).
  destruct (Rltb (Rabs (vx a - vx b)) eps) eqn:E.
  - assert (X : tltb (tabs (tsub (vx a) (vx b))) eps = true) by exact E. rewrite X. rbool. pose proof (in_span (vy p) (vy a) (vy b)) as K. rewrite thr_R in K. change (1 / 100000000) with eps in K. rewrite K. split; [auto|intros [[Y _]|[_ Y]]; [lra|auto]].
  - assert (X : tltb (tabs (tsub (vx a) (vx b))) eps = false) by exact E. rewrite X. rbool. pose proof (in_span (vx p) (vx a) (vx b)) as K. rewrite thr_R in K. change (1 / 100000000) with eps in K. rewrite K. split; [auto|intros [[_ Y]|[Y _]]; [auto|lra]].
Qed.

(** one of the segments is a point (up to the tolerance) *)
Theorem C17_point (u1 u2 v1 v2 : vec) :
  Rabs (cross u1 u2 v1 v2) <= eps -> Rabs (cross u1 u2 v1 u1) <= eps -> Rabs (cross v1 v2 v1 u1) <= eps ->
  let r := intrLineSeg2LineSeg2 u1 u2 v1 v2 in
  (fuzzyEqual u1 u2 eps = true -> fuzzyEqual v1 v2 eps = true ->
     (Rabs (vx u1 - vx v1) < eps /\ Rabs (vy u1 - vy v1) < eps -> r = LLTrue u1) /\
     (~ (Rabs (vx u1 - vx v1) < eps /\ Rabs (vy u1 - vy v1) < eps) -> r = LLNone)) /\
  (fuzzyEqual u1 u2 eps = true -> fuzzyEqual v1 v2 eps = false ->
     (bySegment u1 v1 v2 -> r = LLTrue u1) /\ (~ bySegment u1 v1 v2 -> r = LLNone)) /\
  (fuzzyEqual u1 u2 eps = false -> fuzzyEqual v1 v2 eps = true ->
     (bySegment v1 u1 u2 -> r = LLTrue v1) /\ (~ bySegment v1 u1 u2 -> r = LLNone)).
Proof.
  intros H1 H2 H3 r. unfold r, intrLineSeg2LineSeg2, perpDot, vsub, vadd, vscale. rcbn.
  fold (cross u1 u2 v1 v2). fold (cross v1 v2 v1 u1). fold (cross u1 u2 v1 u1). fold eps.
  rewrite (proj2 (Rltb_false _ _) H1), (proj2 (Rltb_false _ _) H2), (proj2 (Rltb_false _ _) H3). cbn [orb].
  split; [|split]; intros -> ->; cbn [andb].
  - pose proof (fuzzyEqual_R u1 v1 eps) as K. destruct (fuzzyEqual u1 v1 eps).
    + split; [reflexivity|]. intros N. exfalso. apply N, K. reflexivity.
    + split; [|reflexivity]. intros Y. apply K in Y. discriminate.
  - pose proof (in_seg u1 v1 v2) as K. destruct (isInSegment u1 v1 v2).
    + split; [reflexivity|]. intros N. exfalso. apply N, K. reflexivity.
    + split; [|reflexivity]. intros Y. apply K in Y. discriminate.
  - pose proof (in_seg v1 u1 u2) as K. destruct (isInSegment v1 u1 u2).
    + split; [reflexivity|]. intros N. exfalso. apply N, K. reflexivity.
    + split; [|reflexivity]. intros Y. apply K in Y. discriminate.
Qed.

(** a point of the segment is found, wherever it is *)
Corollary C17_point_on (v1 v2 : vec) (t : R) : 0 <= t <= 1 -> fuzzyEqual v1 v2 eps = false ->
  let p := lerp v1 v2 t in intrLineSeg2LineSeg2 p p v1 v2 = LLTrue p /\ intrLineSeg2LineSeg2 v1 v2 p p = LLTrue p.
Proof.
  intros Ht Hf p. pose proof eps_pos as He.
  assert (Fp : fuzzyEqual p p eps = true) by (apply fuzzyEqual_R; rewrite !Rminus_eq_0, Rabs_R0; auto).
  assert (Z : forall a b : vec, cross p p a b = 0) by (intros; unfold cross; ring).
  assert (Z' : forall a b : vec, cross a b p p = 0) by (intros; unfold cross; ring).
  assert (Zl : cross v1 v2 v1 p = 0) by (unfold cross, p, lerp; cbn [vx vy]; ring).
  assert (Zl' : cross v1 v2 p v1 = 0) by (unfold cross, p, lerp; cbn [vx vy]; ring).
  assert (B : bySegment p v1 v2).
  { destruct (Rlt_le_dec (Rabs (vx v1 - vx v2)) eps) as [L|L]; [right|left]; (split; [exact L|]); exists t; (split; [exact Ht|]); unfold p, lerp; cbn [vx vy].
    - replace (vy v1 + t * (vy v2 - vy v1) - (vy v1 + t * (vy v2 - vy v1))) with 0 by ring. rewrite Rabs_R0. lra.
    - replace (vx v1 + t * (vx v2 - vx v1) - (vx v1 + t * (vx v2 - vx v1))) with 0 by ring. rewrite Rabs_R0. lra. }
  split.
  - destruct (C17_point p p v1 v2) as (_ & K & _); [rewrite Z, Rabs_R0; lra|rewrite Z, Rabs_R0; lra|rewrite Zl, Rabs_R0; lra|]. now apply (K Fp Hf).
  - destruct (C17_point v1 v2 p p) as (_ & _ & K); [rewrite Z', Rabs_R0; lra|rewrite Zl', Rabs_R0; lra|rewrite Z, Rabs_R0; lra|]. now apply (K Hf Fp).
Qed.

(** a box grown by [d >= 0] holds exactly the points at most [d] from it along both axes *)
Theorem C15_expand (bb : aabb) (d : R) (q : vec) : xMin bb <= xMax bb -> yMin bb <= yMax bb -> 0 <= d ->
  (inBox (expand bb d) q <-> exists p, inBox bb p /\ Rabs (vx q - vx p) <= d /\ Rabs (vy q - vy p) <= d).
Proof.
  intros Hx Hy Hd. unfold inBox, expand. rcbn. split.
  - intros (A & B).
    exists (mkV (Rmax (xMin bb) (Rmin (vx q) (xMax bb))) (Rmax (yMin bb) (Rmin (vy q) (yMax bb)))). cbn [vx vy].
    assert (G : forall lo hi x : R, lo <= hi -> lo - d <= x <= hi + d -> lo <= Rmax lo (Rmin x hi) <= hi /\ Rabs (x - Rmax lo (Rmin x hi)) <= d).
    { intros lo hi x L I. unfold Rmax, Rmin. destruct (Rle_dec x hi); destruct (Rle_dec lo _); (split; [lra|]); apply Rabs_le; lra. }
    destruct (G _ _ (vx q) Hx A) as [G1 G2]. destruct (G _ _ (vy q) Hy B) as [G3 G4]. auto.
  - intros (p & (A & B) & C & D). 
    assert (G : forall x : R, Rabs x <= d -> - d <= x <= d).
    { intros x X. pose proof (Rle_abs x). pose proof (Rle_abs (- x)). rewrite Rabs_Ropp in *. lra. }
    apply G in C. apply G in D. clear G. set (qx := vx q) in *. set (qy := vy q) in *. set (px0 := vx p) in *. set (py0 := vy p) in *. clearbody qx qy px0 py0. clear - A B C D Hd. destruct bb as [x0 y0 x1 y1]. cbn [xMin xMax yMin yMax] in *. split; split; lra.
Qed.
