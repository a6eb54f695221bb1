(** * C54: winding numbers of simple closed polylines *)
From Coq Require Import ZArith Reals Lra Lia Psatz List Bool Arith Permutation Sorted Classical.
From Coquelicot Require Import Coquelicot.
From Verif Require Import Base Num MathUtils PlineSegment SpatialIndex Polyline Intersects Combine StdLaws RGeom Spec PropsMath ArcGeom Polar PropsSegment PropsClosest PropsIntr PropsPlineIntr PropsPolyline PropsArea Turning PropsWinding PropsPlineIndex PropsFindIntr PropsRegion PropsCoincident PropsSlices PropsStitch PropsCombine PropsPieces PropsTrace PropsBoolOps PropsCover PropsEuler PropsBalance PropsRegionOps.
Import ListNotations.
Open Scope R_scope.

(** ** The turning of a smooth path *)
Lemma shift_derive (f : R -> R) (c t l : R) : is_derive f t l -> is_derive (fun u => f u - c) t l.
Proof. intros H. auto_derive; [eexists; exact H|]. replace (Derive (fun x => f x) t) with l by (symmetry; apply is_derive_unique, H). ring. Qed.

Lemma lift (p : vec) (P : R -> vec) (dX dY : R -> R) (a b : R) : a <= b ->
  (forall t, is_derive (fun u => vx (P u)) t (dX t)) -> (forall t, is_derive (fun u => vy (P u)) t (dY t)) ->
  (forall t, continuous dX t) -> (forall t, continuous dY t) -> (forall t, a <= t <= b -> P t <> p) ->
  ex_RInt (angSpeed p P) a b /\ congruent (angU p (P b) - angU p (P a)) (RInt (angSpeed p P) a b).
Proof.
  intros Hab HX HY CX CY Hoff.
  set (X := fun t => vx (P t) - vx p). set (Y := fun t => vy (P t) - vy p). set (Q := fun t => X t * X t + Y t * Y t).
  set (w := fun t => (X t * dY t - Y t * dX t) / Q t).
  assert (DX : forall t, is_derive X t (dX t)). { intros t. apply (shift_derive (fun u => vx (P u))), HX. }
  assert (DY : forall t, is_derive Y t (dY t)). { intros t. apply (shift_derive (fun u => vy (P u))), HY. }
  assert (Qp : forall t, a <= t <= b -> 0 < Q t).
  { intros t Ht. specialize (Hoff t Ht). pose proof (dist_pos _ _ Hoff) as D. pose proof (dist_sq (P t) p) as S. unfold Q, X, Y. rewrite <- S. nra. }
  assert (Ew : forall t, angSpeed p P t = w t).
  { intros t. unfold angSpeed, w, Q, X, Y.
    assert (E1 : Derive (fun u => vx (P u)) t = dX t) by (apply is_derive_unique; apply HX).
    assert (E2 : Derive (fun u => vy (P u)) t = dY t) by (apply is_derive_unique; apply HY).
    rewrite E1, E2. f_equal. rring. }
  assert (XC : forall t, continuous X t) by (intros t; apply (ex_derive_continuous X); eexists; apply DX).
  assert (YC : forall t, continuous Y t) by (intros t; apply (ex_derive_continuous Y); eexists; apply DY).
  assert (MC : forall f g t, continuous f t -> continuous g t -> continuous (fun t : R => f t * g t) t) by (intros f g t H1 H2; exact (continuous_mult (K := R_AbsRing) f g t H1 H2)).
  assert (wC : forall t, a <= t <= b -> continuous w t).
  { intros t Ht. unfold w, Rdiv. apply MC.
    - apply (continuous_minus (V := R_NormedModule) (fun t => X t * dY t) (fun t => Y t * dX t)); apply MC; auto.
    - apply (continuous_comp Q Rinv).
      + unfold Q. apply (continuous_plus (V := R_NormedModule) (fun t => X t * X t) (fun t => Y t * Y t)); apply MC; auto.
      + apply (ex_derive_continuous (V := R_NormedModule) Rinv). specialize (Qp t Ht). auto_derive. lra. }
  set (cl := fun t => Rmax a (Rmin b t)).
  assert (clC : forall t, continuous cl t).
  { intros t. apply continuity_pt_filterlim. unfold cl. intros e He. exists e. split; [auto|]. intros x [_ Hx]. cbn in *. unfold R_dist in *. eapply Rle_lt_trans; [|exact Hx].
    unfold Rmax, Rmin, Rabs. repeat destruct (Rle_dec _ _); repeat destruct (Rcase_abs _); lra. }
  assert (clI : forall t, a <= cl t <= b). { intros t. unfold cl, Rmax, Rmin. repeat destruct (Rle_dec _ _); lra. }
  assert (clE : forall t, a <= t <= b -> cl t = t). { intros t Ht. unfold cl, Rmax, Rmin. repeat destruct (Rle_dec _ _); lra. }
  set (w' := fun t => w (cl t)).
  assert (w'C : forall t, continuous w' t). { intros t. apply (continuous_comp cl w); [apply clC|apply wC, clI]. }
  set (G := fun t => RInt w' a t).
  assert (DG : forall t, is_derive G t (w' t)).
  { intros t. apply (is_derive_RInt (V := R_CompleteNormedModule)) with (a := a); [|apply w'C]. apply filter_forall. intros y. apply (RInt_correct (V := R_CompleteNormedModule)). apply (ex_RInt_continuous (V := R_CompleteNormedModule)). intros z _. apply w'C. }
  assert (Ge : RInt (angSpeed p P) a b = G b).
  { unfold G. apply (RInt_ext (V := R_CompleteNormedModule)). intros t Ht. rewrite Rmin_left, Rmax_right in Ht by lra. unfold w'. rewrite clE by lra. apply Ew. }
  split.
  { apply (ex_RInt_ext (V := R_NormedModule) w); [intros t _; symmetry; apply Ew|]. apply (ex_RInt_continuous (V := R_CompleteNormedModule)). intros z Hz. rewrite Rmin_left, Rmax_right in Hz by lra. now apply wC. }
  rewrite Ge. destruct (Req_dec a b) as [<-|Nab]. { unfold G. rewrite (RInt_point (V := R_CompleteNormedModule)). exists 0%Z. cbn. unfold zero. cbn. ring. }
  set (A := fun t => (X t * cos (G t) + Y t * sin (G t)) / sqrt (Q t)). set (B := fun t => (Y t * cos (G t) - X t * sin (G t)) / sqrt (Q t)).
  assert (DQ : forall t, is_derive Q t (2 * (X t * dX t + Y t * dY t))).
  { intros t. unfold Q. pose proof (DX t) as H1. pose proof (DY t) as H2. auto_derive.
    - split; [eexists; apply H1|]. split; [eexists; apply H1|]. split; [eexists; apply H2|]. split; [eexists; apply H2|auto].
    - replace (Derive (fun x => X x) t) with (dX t) by (symmetry; apply is_derive_unique; apply H1). replace (Derive (fun x => Y x) t) with (dY t) by (symmetry; apply is_derive_unique; apply H2). ring. }
  assert (D0 : forall t, a <= t <= b -> is_derive A t 0 /\ is_derive B t 0).
  { intros t Ht. pose proof (Qp t Ht) as Hq. pose proof (sqrt_lt_R0 _ Hq) as Hs. pose proof (sqrt_sqrt (Q t) ltac:(lra)) as SS.
    pose proof (DX t) as H1. pose proof (DY t) as H2. pose proof (DG t) as H3. pose proof (DQ t) as H4.
    assert (E1 : Derive (fun x => X x) t = dX t) by (apply is_derive_unique; apply H1). assert (E2 : Derive (fun x => Y x) t = dY t) by (apply is_derive_unique; apply H2).
    assert (E3 : Derive (fun x => G x) t = w t) by (apply is_derive_unique; unfold w' in H3; rewrite clE in H3 by lra; apply H3). assert (E4 : Derive (fun x => Q x) t = 2 * (X t * dX t + Y t * dY t)) by (apply is_derive_unique; apply H4).
    assert (KEY1 : X t * w t = dY t - Y t * ((X t * dX t + Y t * dY t) / Q t)). { unfold w. field_simplify_eq; [unfold Q; ring|lra]. }
    assert (KEY2 : Y t * w t = X t * ((X t * dX t + Y t * dY t) / Q t) - dX t). { unfold w. field_simplify_eq; [unfold Q; ring|lra]. }
    set (k := (X t * dX t + Y t * dY t) / Q t) in *. assert (Kq : X t * dX t + Y t * dY t = k * Q t) by (unfold k; field; lra). rewrite Kq in E4.
    split.
    - unfold A. auto_derive.
      + pose proof (ex_intro _ _ H1 : ex_derive (fun x => X x) t). pose proof (ex_intro _ _ H2 : ex_derive (fun x => Y x) t). pose proof (ex_intro _ _ H3 : ex_derive (fun x => G x) t). pose proof (ex_intro _ _ H4 : ex_derive (fun x => Q x) t). assert (sqrt (Q t) <> 0) by lra. tauto.
      + rewrite E1, E2, E3, E4. set (s := sqrt (Q t)) in *. rewrite <- SS. set (g := G t). 
        transitivity (((dX t + Y t * w t - X t * k) * cos g + (dY t - X t * w t - Y t * k) * sin g) / s); [field; lra|]. rewrite KEY1, KEY2. field. lra.
    - unfold B. auto_derive.
      + pose proof (ex_intro _ _ H1 : ex_derive (fun x => X x) t). pose proof (ex_intro _ _ H2 : ex_derive (fun x => Y x) t). pose proof (ex_intro _ _ H3 : ex_derive (fun x => G x) t). pose proof (ex_intro _ _ H4 : ex_derive (fun x => Q x) t). assert (sqrt (Q t) <> 0) by lra. tauto.
      + rewrite E1, E2, E3, E4. set (s := sqrt (Q t)) in *. rewrite <- SS. set (g := G t). 
        transitivity (((dY t - X t * w t - Y t * k) * cos g - (dX t + Y t * w t - X t * k) * sin g) / s); [field; lra|]. rewrite KEY1, KEY2. field. lra. }
  assert (EA : A a = A b) by (apply (eq_is_derive (V := R_NormedModule) A); [intros t Ht; apply D0; auto|lra]).
  assert (EB : B a = B b) by (apply (eq_is_derive (V := R_NormedModule) B); [intros t Ht; apply D0; auto|lra]).
  assert (Ga : G a = 0) by (unfold G; rewrite (RInt_point (V := R_CompleteNormedModule)); reflexivity).
  pose proof (Qp a ltac:(lra)) as Qa. pose proof (Qp b ltac:(lra)) as Qb. pose proof (sqrt_lt_R0 _ Qa) as Sa. pose proof (sqrt_lt_R0 _ Qb) as Sb.
  unfold A in EA. unfold B in EB. rewrite Ga, cos_0, sin_0 in EA, EB.
  destruct (angU_polar p (P a) (Hoff a ltac:(lra))) as (P1 & P2 & P3).
  assert (Da : dist p (P a) = sqrt (Q a)). { unfold dist. f_equal. unfold Q, X, Y. rcbn. ring. }
  rewrite Da in P1, P2. change (X a = sqrt (Q a) * cos (angU p (P a))) in P1. change (Y a = sqrt (Q a) * sin (angU p (P a))) in P2.
  set (al := angU p (P a)) in *. set (g := G b) in *.
  assert (XA : X b * cos g + Y b * sin g = sqrt (Q b) * cos al). { apply Rmult_eq_reg_r with (/ sqrt (Q b)); [|apply Rinv_neq_0_compat; lra]. fold (Rdiv (X b * cos g + Y b * sin g) (sqrt (Q b))). rewrite <- EA, P1. field. lra. }
  assert (XB : Y b * cos g - X b * sin g = sqrt (Q b) * sin al). { apply Rmult_eq_reg_r with (/ sqrt (Q b)); [|apply Rinv_neq_0_compat; lra]. fold (Rdiv (Y b * cos g - X b * sin g) (sqrt (Q b))). rewrite <- EB, P2. field. lra. }
  pose proof (sin2_cos2 g) as T. unfold Rsqr in T.
  assert (C : congruent (angU p (P b)) (al + g)).
  { apply (angU_congruent p (P b) (sqrt (Q b))); [auto| |].
    - change (X b = sqrt (Q b) * cos (al + g)). rewrite cos_plus. transitivity ((X b * cos g + Y b * sin g) * cos g - (Y b * cos g - X b * sin g) * sin g); [|rewrite XA, XB; ring]. transitivity (X b * (sin g * sin g + cos g * cos g)); [rewrite T; ring|ring].
    - change (Y b = sqrt (Q b) * sin (al + g)). rewrite sin_plus. transitivity ((Y b * cos g - X b * sin g) * cos g + (X b * cos g + Y b * sin g) * sin g); [|rewrite XA, XB; ring]. transitivity (Y b * (sin g * sin g + cos g * cos g)); [rewrite T; ring|ring]. }
  destruct C as (k & Ek). exists k. lra.
Qed.

(** ** Parts of smooth paths *)
(** a path with continuous derivatives and bounded speed *)
Definition smoothP (P : R -> vec) : Prop :=
  (exists dX dY, (forall t, is_derive (fun u => vx (P u)) t (dX t)) /\ (forall t, is_derive (fun u => vy (P u)) t (dY t)) /\ (forall t, continuous dX t) /\ (forall t, continuous dY t)) /\
  exists S, 0 < S /\ forall t, Cmod (vel P t) <= S.

Definition part (P : R -> vec) (a b : R) (q : vec) : R := RInt (angSpeed q P) a b.
Definition offPart (P : R -> vec) (a b : R) (q : vec) : Prop := forall t, a <= t <= b -> P t <> q.

Lemma is_derive_ext' (f g : R -> R) t l : (forall u, f u = g u) -> is_derive f t l -> is_derive g t l.
Proof. intros E H. apply (is_derive_ext f); auto. Qed.

Lemma seg_smoothP v1 v2 : smoothP (segPath v1 v2).
Proof.
  split; [|apply seg_speed]. destruct (Rlt_dec (Rabs (bulge v1)) (1 / 100000)) as [Hl|Hl].
  - exists (fun _ => vx (pos v2) - vx (pos v1)), (fun _ => vy (pos v2) - vy (pos v1)). split; [|split; [|split; intros; apply continuous_const]].
    + intros t. apply (is_derive_ext' (fun u => vx (lerp (pos v1) (pos v2) u))); [intros u; now rewrite segPath_line|]. unfold lerp. cbn [vx]. auto_derive; auto. rring.
    + intros t. apply (is_derive_ext' (fun u => vy (lerp (pos v1) (pos v2) u))); [intros u; now rewrite segPath_line|]. unfold lerp. cbn [vy]. auto_derive; auto. rring.
  - set (c := ctrOf v1 v2). set (th := sweep (bulge v1)).
    exists (fun t => - (th * (vy (rot c (t * th) (pos v1)) - vy c))), (fun t => th * (vx (rot c (t * th) (pos v1)) - vx c)). split; [|split; [|split]].
    + intros t. apply (is_derive_ext' (fun u => vx (rot c (u * th) (pos v1)))); [intros u; now rewrite segPath_arc|]. apply arc_dX.
    + intros t. apply (is_derive_ext' (fun u => vy (rot c (u * th) (pos v1)))); [intros u; now rewrite segPath_arc|]. apply arc_dY.
    + apply arc_cX.
    + apply arc_cY.
Qed.

Lemma smooth_cont P t : smoothP P -> continuous (fun u => vx (P u)) t /\ continuous (fun u => vy (P u)) t.
Proof.
  intros ((dX & dY & HX & HY & _) & _). split; [apply (ex_derive_continuous (fun u => vx (P u))); eexists; apply HX|apply (ex_derive_continuous (fun u => vy (P u))); eexists; apply HY].
Qed.

Lemma part_turn P a b q : smoothP P -> a <= b -> offPart P a b q -> ex_RInt (angSpeed q P) a b /\ congruent (angU q (P b) - angU q (P a)) (part P a b q).
Proof. intros ((dX & dY & HX & HY & CX & CY) & _) Hab Ho. apply (lift q P dX dY); auto. Qed.

Lemma part_away P a b q : smoothP P -> a <= b -> offPart P a b q -> exists d, 0 < d /\ forall t, a <= t <= b -> d <= dist q (P t).
Proof.
  intros Hs Hab Hoff. destruct (continuity_ab_min (fun u => dist q (P u)) a b) as (t0 & Hmin & Ht0); [lra| |].
  { intros c _. apply continuity_pt_filterlim. apply path_dist_continuous; apply smooth_cont, Hs. }
  exists (dist q (P t0)). split; [|auto]. apply dist_pos. intros E. apply (Hoff t0); auto.
Qed.

Lemma part_local P a b p e : smoothP P -> a <= b -> offPart P a b p -> 0 < e -> exists d, 0 < d /\ forall q, dist p q < d -> offPart P a b q /\ Rabs (part P a b q - part P a b p) <= e.
Proof.
  intros Hs Hab Hoff He. destruct (part_away P a b p Hs Hab Hoff) as (d & Hd & Haway). destruct (proj2 Hs) as (S & HS & Hspeed).
  set (e' := e / (b - a + 1)). assert (He' : 0 < e') by (apply Rdiv_lt_0_compat; lra).
  assert (Ee : (b - a) * e' <= e). { unfold e'. apply Rmult_le_reg_r with (b - a + 1); [lra|]. replace ((b - a) * (e / (b - a + 1)) * (b - a + 1)) with ((b - a) * e) by (field; lra). nra. }
  exists (Rmin (d / 2) (e' * (d * d) / (2 * S))). split. { apply Rmin_glb_lt; [lra|]. apply Rdiv_lt_0_compat; [|lra]. apply Rmult_lt_0_compat; [auto|]. apply Rmult_lt_0_compat; auto. }
  intros q Hq. assert (Hq1 : dist p q < d / 2) by (eapply Rlt_le_trans; [exact Hq|apply Rmin_l]). assert (Hq2 : dist p q < e' * (d * d) / (2 * S)) by (eapply Rlt_le_trans; [exact Hq|apply Rmin_r]).
  assert (Hfar : forall t, a <= t <= b -> d / 2 <= dist q (P t)).
  { intros t Ht. specialize (Haway t Ht). pose proof (dist_tri p q (P t)). lra. }
  assert (Hoffq : offPart P a b q).
  { intros t Ht E. specialize (Hfar t Ht). rewrite E in Hfar. replace (dist q q) with 0 in Hfar; [lra|]. unfold dist. replace ((vx q - vx q) ^ 2 + (vy q - vy q) ^ 2) with 0 by ring. now rewrite sqrt_0. }
  split; [auto|]. destruct (part_turn P a b q Hs Hab Hoffq) as [I1 _]. destruct (part_turn P a b p Hs Hab Hoff) as [I2 _].
  pose proof (is_RInt_minus _ _ _ _ _ _ (RInt_correct (V := R_CompleteNormedModule) _ _ _ I1) (RInt_correct (V := R_CompleteNormedModule) _ _ _ I2)) as HI.
  pose proof (fun M H => norm_RInt_le_const _ a b _ M Hab H HI) as HN. specialize (HN e').
  unfold norm, minus, plus, opp in HN. cbn in HN. unfold abs in HN. cbn in HN. unfold part, Rminus. eapply Rle_trans; [apply HN|exact Ee].
  intros t Ht. pose proof (Hoff t Ht) as Np. pose proof (Hoffq t Ht) as Nq.
  eapply Rle_trans; [exact (speed_diff p q _ t Np Nq)|]. specialize (Haway t Ht). specialize (Hfar t Ht). specialize (Hspeed t).
  set (x := dist p (P t)) in *. set (y := dist q (P t)) in *. set (k := Cmod _) in *. set (z := dist p q) in *. pose proof (dist_nonneg p q) as Hx. fold z in Hx.
  apply Rmult_le_reg_r with (x * y); [nra|]. unfold Rdiv. rewrite Rmult_assoc, Rinv_l by nra. rewrite Rmult_1_r.
  assert (k * z <= S * z) by (apply Rmult_le_compat_r; auto).
  assert (S * z <= e' * (d * d) / 2). { apply Rmult_lt_compat_l with (r := S) in Hq2; [|auto]. replace (S * (e' * (d * d) / (2 * S))) with (e' * (d * d) / 2) in Hq2 by (field; lra). lra. }
  assert (d * (d / 2) <= x * y) by (apply Rmult_le_compat; lra).
  assert (e' * (d * (d / 2)) <= e' * (x * y)) by (apply Rmult_le_compat_l; lra). lra.
Qed.

Lemma part_split P a m b q : smoothP P -> a <= m <= b -> offPart P a b q -> part P a m q + part P m b q = part P a b q.
Proof.
  intros Hs Hm Ho. unfold part. destruct (part_turn P a m q Hs ltac:(lra) ltac:(intros t Ht; apply Ho; lra)) as [I1 _]. destruct (part_turn P m b q Hs ltac:(lra) ltac:(intros t Ht; apply Ho; lra)) as [I2 _].
  pose proof (RInt_Chasles (V := R_CompleteNormedModule) _ _ _ _ I1 I2) as E. exact E.
Qed.

(** ** Lattice-valued functions on an interval *)
Lemma lattice_on (f : R -> R) a b : a <= b -> (forall t, a <= t <= b -> continuity_pt f t) -> (forall t, a <= t <= b -> exists k : Z, f t = 2 * PI * IZR k) -> f a = f b.
Proof.
  intros Hab Hc Hk. set (cl := fun t => Rmax a (Rmin b t)).
  assert (clC : forall t, continuity_pt cl t).
  { intros t. unfold cl. intros e He. exists e. split; [auto|]. intros x [_ Hx]. cbn in *. unfold R_dist in *. eapply Rle_lt_trans; [|exact Hx].
    unfold Rmax, Rmin, Rabs. repeat destruct (Rle_dec _ _); repeat destruct (Rcase_abs _); lra. }
  assert (clI : forall t, a <= cl t <= b). { intros t. unfold cl, Rmax, Rmin. repeat destruct (Rle_dec _ _); lra. }
  assert (clE : forall t, a <= t <= b -> cl t = t). { intros t Ht. unfold cl, Rmax, Rmin. repeat destruct (Rle_dec _ _); lra. }
  pose proof (lattice_const (fun t => f (cl t)) a b) as L. cbn beta in L. rewrite !clE in L by lra. apply L.
  - intros t. apply (continuity_pt_comp cl f); [apply clC|apply Hc, clI].
  - intros t. apply Hk, clI.
Qed.

(** a limit of lattice values is a lattice value *)
Lemma lattice_closed (f : R -> R) t : continuity_pt f t -> (forall d, 0 < d -> exists s, Rabs (s - t) < d /\ exists k : Z, f s = 2 * PI * IZR k) -> exists k : Z, f t = 2 * PI * IZR k.
Proof.
  intros Hc Hd. pose proof PI_RGT_0 as HP. set (y := f t / (2 * PI)). assert (Ey : f t = 2 * PI * y) by (unfold y; field; lra).
  destruct (archimed y) as [U1 U2]. set (k := up y) in *. destruct (Req_dec y (IZR k - 1)) as [E|N]; [exists (k - 1)%Z; rewrite minus_IZR; now rewrite <- E|]. exfalso.
  set (e := 2 * PI * Rmin (IZR k - y) (y - (IZR k - 1))). assert (He0 : 0 < Rmin (IZR k - y) (y - (IZR k - 1))) by (apply Rmin_glb_lt; lra). assert (He : 0 < e) by (unfold e; nra).
  destruct (Hc e He) as (d & Hd0 & H). destruct (Hd d Hd0) as (s & Hs & m & Em).
  assert (B : Rabs (f s - f t) < e). { destruct (Req_dec s t) as [->|Ns]; [rewrite Rminus_diag_eq, Rabs_R0; auto|]. apply (H s). split; [split; [exact I|auto]|exact Hs]. }
  rewrite Em, Ey in B. pose proof (Rmin_l (IZR k - y) (y - (IZR k - 1))). pose proof (Rmin_r (IZR k - y) (y - (IZR k - 1))). unfold e in B. set (mn := Rmin _ _) in *.
  replace (2 * PI * IZR m - 2 * PI * y) with (2 * PI * (IZR m - y)) in B by ring. rewrite Rabs_mult, (Rabs_right (2 * PI)) in B by lra. apply Rmult_lt_reg_l in B; [|lra].
  assert (IZR m < IZR k /\ IZR k - 1 < IZR m) as [B1 B2] by (unfold Rabs in B; destruct (Rcase_abs _) in B; lra).
  apply lt_IZR in B1. replace (IZR k - 1) with (IZR (k - 1)) in B2 by (rewrite minus_IZR; reflexivity). apply lt_IZR in B2. lia.
Qed.

(** ** Circles *)
Lemma onCircle_per c r th k : onCircle c r (th + IZR k * (2 * PI)) = onCircle c r th.
Proof. unfold onCircle. assert (C : congruent th (th + IZR k * (2 * PI))) by (exists k; reflexivity). now rewrite <- (congruent_cos _ _ C), <- (congruent_sin _ _ C). Qed.

Lemma onCircle_ex c r q lo : 0 < r -> dist c q = r -> exists th, lo < th <= lo + 2 * PI /\ q = onCircle c r th.
Proof.
  intros Hr Hd. assert (N : q <> c). { intros ->. unfold dist in Hd. replace ((vx c - vx c) ^ 2 + (vy c - vy c) ^ 2) with 0 in Hd by ring. rewrite sqrt_0 in Hd. lra. }
  destruct (angU_polar c q N) as (E1 & E2 & _). rewrite Hd in E1, E2. pose proof PI_RGT_0 as HP.
  set (a := angU c q) in *. set (y := (lo - a) / (2 * PI)). destruct (archimed y) as [U1 U2]. set (k := up y) in *.
  exists (a + IZR k * (2 * PI)). split.
  - assert (Ey : lo = a + y * (2 * PI)) by (unfold y; field; lra). rewrite Ey. split; nra.
  - rewrite onCircle_per. unfold onCircle. apply vec_eq; rcbn; lra.
Qed.

Lemma onCircle_inj c r a b lo : 0 < r -> onCircle c r a = onCircle c r b -> lo < a <= lo + 2 * PI -> lo < b <= lo + 2 * PI -> a = b.
Proof.
  intros Hr E Ha Hb. injection E as E1 E2. apply (congruent_unique' a b lo); auto. apply cos_sin_congruent.
  - apply Rmult_eq_reg_l with r; lra. - apply Rmult_eq_reg_l with r; lra.
Qed.

Lemma onCircle_cont c r t : continuous (fun u => vx (onCircle c r u)) t /\ continuous (fun u => vy (onCircle c r u)) t.
Proof.
  unfold onCircle. cbn [vx vy]. split.
  - apply (ex_derive_continuous (V := R_NormedModule) (fun u => vx c + r * cos u)). auto_derive. auto.
  - apply (ex_derive_continuous (V := R_NormedModule) (fun u => vy c + r * sin u)). auto_derive. auto.
Qed.

(** the turning of a part seen from the points of a circle, up to a constant *)
Lemma arm_angle P a b x r th1 (A : R -> R) : smoothP P -> a <= b -> 0 < r ->
  (forall th, continuity_pt A th) -> (forall th, congruent (angU (onCircle x r th) (P b) - angU (onCircle x r th) (P a)) (A th)) ->
  (forall th, th1 < th < th1 + 2 * PI -> offPart P a b (onCircle x r th)) ->
  exists c, forall th, th1 < th < th1 + 2 * PI -> part P a b (onCircle x r th) = A th + c.
Proof.
  intros Hs Hab Hr CA EA Ho. pose proof PI_RGT_0 as HP. set (f := fun th => part P a b (onCircle x r th) - A th).
  assert (Fc : forall th, th1 < th < th1 + 2 * PI -> continuity_pt f th).
  { intros th Hth. apply (continuity_pt_minus (fun th => part P a b (onCircle x r th)) A); [|apply CA]. destruct (onCircle_cont x r th) as [C1 C2].
    apply (along_continuous (part P a b) (onCircle x r) th C1 C2). intros e He. destruct (part_local P a b (onCircle x r th) e Hs Hab (Ho th Hth) He) as (d & Hd & H). exists d. split; [auto|]. intros q Hq. now apply H. }
  assert (Fl : forall th, th1 < th < th1 + 2 * PI -> exists k : Z, f th = 2 * PI * IZR k).
  { intros th Hth. destruct (part_turn P a b _ Hs Hab (Ho th Hth)) as [_ C]. destruct C as (k1 & E1). destruct (EA th) as (k2 & E2). exists (k1 - k2)%Z. unfold f. rewrite E1, E2, minus_IZR. ring. }
  exists (f (th1 + PI)). intros th Hth. assert (E : f th = f (th1 + PI)); [|unfold f in *; lra].
  destruct (Rle_dec th (th1 + PI)); [apply lattice_on; auto; intros; [apply Fc|apply Fl]; lra|symmetry; apply lattice_on; [lra| |]; intros; [apply Fc|apply Fl]; lra].
Qed.

(** ** Arms: parts on which the distance from one end grows *)
Definition armOut (x : vec) (P : R -> vec) (a b : R) : Prop := a < b /\ P a = x /\ forall s t, a <= s -> s < t -> t <= b -> dist x (P s) < dist x (P t).
Definition armIn (x : vec) (P : R -> vec) (a b : R) : Prop := a < b /\ P b = x /\ forall s t, a <= s -> s < t -> t <= b -> dist x (P t) < dist x (P s).

Lemma dist_self x : dist x x = 0.
Proof. unfold dist. replace ((vx x - vx x) ^ 2 + (vy x - vy x) ^ 2) with 0 by ring. apply sqrt_0. Qed.

Lemma armOut_hit x P a b r : smoothP P -> armOut x P a b -> 0 < r -> r < dist x (P b) ->
  exists t, a < t < b /\ dist x (P t) = r /\ forall s, a <= s <= b -> dist x (P s) = r -> s = t.
Proof.
  intros Hs (Hab & Ea & Hm) Hr Hb.
  destruct (IVT_gen (fun u => dist x (P u)) a b r) as (t & Ht & Et).
  { intros t. apply continuity_pt_filterlim. apply path_dist_continuous; apply smooth_cont, Hs. }
  { rewrite Ea, dist_self. rewrite Rmin_left, Rmax_right by lra. lra. }
  rewrite Rmin_left, Rmax_right in Ht by lra. exists t.
  assert (t <> a) by (intros ->; rewrite Ea, dist_self in Et; lra). assert (t <> b) by (intros ->; lra). split; [lra|]. split; [auto|].
  intros s Hs0 Es. destruct (Rtotal_order s t) as [L|[E|L]]; [specialize (Hm s t ltac:(lra) L ltac:(lra)); lra|auto|specialize (Hm t s ltac:(lra) L ltac:(lra)); lra].
Qed.

Lemma armIn_hit x P a b r : smoothP P -> armIn x P a b -> 0 < r -> r < dist x (P a) ->
  exists t, a < t < b /\ dist x (P t) = r /\ forall s, a <= s <= b -> dist x (P s) = r -> s = t.
Proof.
  intros Hs (Hab & Ea & Hm) Hr Hb.
  destruct (IVT_gen (fun u => dist x (P u)) a b r) as (t & Ht & Et).
  { intros t. apply continuity_pt_filterlim. apply path_dist_continuous; apply smooth_cont, Hs. }
  { rewrite Ea, dist_self. rewrite Rmin_right, Rmax_left by lra. lra. }
  rewrite Rmin_left, Rmax_right in Ht by lra. exists t.
  assert (t <> b) by (intros ->; rewrite Ea, dist_self in Et; lra). assert (t <> a) by (intros ->; lra). split; [lra|]. split; [auto|].
  intros s Hs0 Es. destruct (Rtotal_order s t) as [L|[E|L]]; [specialize (Hm s t ltac:(lra) L ltac:(lra)); lra|auto|specialize (Hm t s ltac:(lra) L ltac:(lra)); lra].
Qed.

(** ** The winding numbers on a small circle around a point of the path *)
Definition germ (pl : polyline) (x : vec) (P1 : R -> vec) (a1 b1 : R) (P2 : R -> vec) (a2 b2 : R) (rest : list (vertex * vertex)) : Prop :=
  smoothP P1 /\ smoothP P2 /\ armIn x P1 a1 b1 /\ armOut x P2 a2 b2 /\
  (forall v1 v2, In (v1, v2) rest -> Rabs (bulge v1) <= 1 /\ ~ onSeg v1 v2 x) /\
  (forall q, ~ onPath pl q -> part P1 a1 b1 q + part P2 a2 b2 q + turnSum rest q = 2 * PI * IZR (getWindingNumber pl q)) /\
  (forall q, onPath pl q <-> ~ offPart P1 a1 b1 q \/ ~ offPart P2 a2 b2 q \/ exists v1 v2, In (v1, v2) rest /\ onSeg v1 v2 q) /\
  (forall s t, a1 < s < b1 -> a2 < t < b2 -> P1 s <> P2 t).

(** on the circle of radius r around x the winding number takes exactly the values u and u - 1 *)
Definition twoValued (pl : polyline) (x : vec) (r : R) (u : Z) : Prop :=
  (forall q, dist x q = r -> ~ onPath pl q -> getWindingNumber pl q = u \/ getWindingNumber pl q = (u - 1)%Z) /\
  (exists q, dist x q = r /\ ~ onPath pl q /\ getWindingNumber pl q = u) /\
  (exists q, dist x q = r /\ ~ onPath pl q /\ getWindingNumber pl q = (u - 1)%Z).

Lemma rest_away (l : list (vertex * vertex)) x : (forall v1 v2, In (v1, v2) l -> ~ onSeg v1 v2 x) -> exists d, 0 < d /\ forall v1 v2 q, In (v1, v2) l -> onSeg v1 v2 q -> d <= dist x q.
Proof.
  induction l as [|[u1 u2] l IH]; intros H; [exists 1; split; [lra|intros ? ? ? []]|].
  destruct IH as (d1 & H1 & D1); [intros; apply H; now right|]. destruct (seg_away u1 u2 x (H u1 u2 (or_introl eq_refl))) as (d2 & H2 & D2).
  exists (Rmin d1 d2). split; [now apply Rmin_glb_lt|]. intros v1 v2 q [E|Hin] O.
  - injection E as <- <-. apply onSeg_path in O. destruct O as (t & Ht & ->). eapply Rle_trans; [apply Rmin_r|apply D2, Ht].
  - eapply Rle_trans; [apply Rmin_l|apply (D1 _ _ _ Hin O)].
Qed.

(** with the incoming arm at angle th1 and the outgoing arm at angle th2 > th1 the value is u - 1 between th1 and th2 and u on the rest of the circle *)
Lemma circle_arcs pl x P1 a1 b1 P2 a2 b2 rest : germ pl x P1 a1 b1 P2 a2 b2 rest -> exists r0, 0 < r0 /\ r0 <= dist x (P1 a1) /\ r0 <= dist x (P2 b2) /\ forall r, 0 < r < r0 -> forall s1 s2 th1 th2,
  a1 <= s1 <= b1 -> a2 <= s2 <= b2 -> P1 s1 = onCircle x r th1 -> P2 s2 = onCircle x r th2 -> th1 < th2 <= th1 + 2 * PI -> exists u, twoValued pl x r u /\
  (forall th, th1 < th < th2 -> getWindingNumber pl (onCircle x r th) = (u - 1)%Z) /\ (forall th, th2 < th < th1 + 2 * PI -> getWindingNumber pl (onCircle x r th) = u).
Proof.
  intros (S1 & S2 & A1 & A2 & HR & HW & HP & HD). pose proof PI_RGT_0 as Hpi.
  destruct (rest_away rest x (fun v1 v2 H => proj2 (HR v1 v2 H))) as (d & Hd & Haway).
  assert (L1 : 0 < dist x (P1 a1)). { destruct A1 as (L & E & M). specialize (M a1 b1 ltac:(lra) L ltac:(lra)). rewrite E, dist_self in M. exact M. }
  assert (L2 : 0 < dist x (P2 b2)). { destruct A2 as (L & E & M). specialize (M a2 b2 ltac:(lra) L ltac:(lra)). rewrite E, dist_self in M. exact M. }
  exists (Rmin d (Rmin (dist x (P1 a1)) (dist x (P2 b2)))). split; [repeat apply Rmin_glb_lt; auto|]. split; [eapply Rle_trans; [apply Rmin_r|apply Rmin_l]|]. split; [eapply Rle_trans; [apply Rmin_r|apply Rmin_r]|].
  intros r [Hr Hr0] s1 s2 th1 th2 Hs1 Hs2 X1 X2 B2.
  assert (R1 : r < d) by (eapply Rlt_le_trans; [exact Hr0|apply Rmin_l]).
  assert (R2 : r < dist x (P1 a1)) by (eapply Rlt_le_trans; [exact Hr0|eapply Rle_trans; [apply Rmin_r|apply Rmin_l]]).
  assert (R3 : r < dist x (P2 b2)) by (eapply Rlt_le_trans; [exact Hr0|eapply Rle_trans; [apply Rmin_r|apply Rmin_r]]).
  destruct (armIn_hit x P1 a1 b1 r S1 A1 Hr R2) as (t1 & T1 & D1 & U1). destruct (armOut_hit x P2 a2 b2 r S2 A2 Hr R3) as (t2 & T2 & D2 & U2).
  assert (CD : forall th, dist x (onCircle x r th) = r) by (intros; apply onCircle_dist; lra).
  assert (E1 : P1 t1 = onCircle x r th1) by (rewrite <- (U1 s1 Hs1); [exact X1|rewrite X1; apply CD]).
  assert (E2 : P2 t2 = onCircle x r th2) by (rewrite <- (U2 s2 Hs2); [exact X2|rewrite X2; apply CD]).
  assert (B2' : th2 < th1 + 2 * PI).
  { destruct B2 as [B B']. destruct B' as [B'|B']; [auto|]. exfalso. apply (HD t1 t2 T1 T2). rewrite E1, E2, B'. rewrite <- (onCircle_per x r th1 1). f_equal. ring. }
  assert (Off1 : forall th, th1 < th < th1 + 2 * PI -> offPart P1 a1 b1 (onCircle x r th)).
  { intros th Hth t Ht E. assert (t = t1) by (apply U1; [auto|rewrite E; auto]). subst t. rewrite E1 in E.
    rewrite <- (onCircle_per x r th1 1) in E. replace (th1 + 1 * (2 * PI)) with (th1 + 2 * PI) in E by ring. apply (onCircle_inj x r _ _ th1) in E; [|auto|lra|lra]. lra. }
  assert (Off2 : forall th, th2 < th < th2 + 2 * PI -> offPart P2 a2 b2 (onCircle x r th)).
  { intros th Hth t Ht E. assert (t = t2) by (apply U2; [auto|rewrite E; auto]). subst t. rewrite E2 in E.
    rewrite <- (onCircle_per x r th2 1) in E. replace (th2 + 1 * (2 * PI)) with (th2 + 2 * PI) in E by ring. apply (onCircle_inj x r _ _ th2) in E; [|auto|lra|lra]. lra. }
  assert (OffR : forall th v1 v2, In (v1, v2) rest -> ~ onSeg v1 v2 (onCircle x r th)).
  { intros th v1 v2 Hin O. specialize (Haway v1 v2 _ Hin O). rewrite CD in Haway. lra. }
  destruct (outside_angle x r (P1 a1) Hr R2) as (l1 & C1 & G1 & Q1). destruct (outside_angle x r (P2 b2) Hr R3) as (l2 & C2 & G2 & Q2).
  assert (Cid : forall th, continuity_pt (fun u => u + PI) th) by (intros th; apply (continuity_pt_plus (fun u => u) (fun _ => PI)); [apply derivable_continuous_pt, derivable_pt_id|apply continuity_pt_const; intros ? ?; reflexivity]).
  destruct (arm_angle P1 a1 b1 x r th1 (fun th => (th + PI) - l1 th) S1 ltac:(apply Rlt_le, A1) Hr) as (c1 & K1); auto.
  { intros th. apply (continuity_pt_minus (fun u => u + PI) l1); auto. }
  { intros th. destruct A1 as (_ & -> & _). unfold Rminus. apply congruent_add; [now apply centre_angle|apply congruent_opp, G1]. }
  destruct (arm_angle P2 a2 b2 x r th2 (fun th => l2 th - (th + PI)) S2 ltac:(apply Rlt_le, A2) Hr) as (c2 & K2); auto.
  { intros th. apply (continuity_pt_minus l2 (fun u => u + PI)); auto. }
  { intros th. destruct A2 as (_ & -> & _). unfold Rminus. apply congruent_add; [apply G2|apply congruent_opp; now apply centre_angle]. }
  set (q := fun th => onCircle x r th). set (F := fun th => l2 th - l1 th + turnSum rest (q th) + (c1 + c2)).
  assert (FC : forall th, continuity_pt F th).
  { intros th. unfold F. apply (continuity_pt_plus (fun th => l2 th - l1 th + turnSum rest (q th)) (fun _ => c1 + c2)); [|apply continuity_pt_const; intros ? ?; reflexivity].
    apply (continuity_pt_plus (fun th => l2 th - l1 th) (fun th => turnSum rest (q th))); [apply (continuity_pt_minus l2 l1); auto|].
    destruct (onCircle_cont x r th) as [Y1 Y2]. apply (along_continuous (turnSum rest) q th Y1 Y2). intros e He.
    destruct (sum_local rest (q th)) with (e := e) as (dd & Hdd & H); [intros v1 v2 Hin; split; [now apply HR in Hin|now apply OffR]|auto|]. exists dd. split; [auto|]. intros z Hz. now apply H. }
  assert (OP : forall th, th1 < th < th1 + 2 * PI -> th <> th2 -> ~ onPath pl (q th)).
  { intros th Hth N O. apply HP in O. destruct O as [O|[O|(v1 & v2 & Hin & O)]]; [now apply O, Off1| |now apply (OffR th v1 v2 Hin)].
    apply O. destruct (Rlt_dec th th2) as [L|L]; [|apply Off2; lra]. unfold q. rewrite <- (onCircle_per x r th 1). apply Off2. lra. }
  assert (W1 : forall th, th1 < th < th2 -> F th = 2 * PI * (IZR (getWindingNumber pl (q th)) + 1)).
  { intros th Hth. pose proof (HW (q th) (OP th ltac:(lra) ltac:(lra))) as E. unfold q in E at 1. rewrite K1 in E by lra.
    assert (E' : part P2 a2 b2 (q th) = l2 th - (th + 2 * PI + PI) + c2). { unfold q. rewrite <- (onCircle_per x r th 1). replace (th + 1 * (2 * PI)) with (th + 2 * PI) by ring. rewrite K2 by lra. now rewrite Q2. }
    rewrite E' in E. unfold F. lra. }
  assert (W2 : forall th, th2 < th < th1 + 2 * PI -> F th = 2 * PI * IZR (getWindingNumber pl (q th))).
  { intros th Hth. pose proof (HW (q th) (OP th ltac:(lra) ltac:(lra))) as E. unfold q in E at 1 2. rewrite K1, K2 in E by lra. unfold F. lra. }
  assert (FL : forall th, th1 < th < th1 + 2 * PI -> exists k : Z, F th = 2 * PI * IZR k).
  { intros th Hth. destruct (Rtotal_order th th2) as [L|[E|L]].
    - exists (getWindingNumber pl (q th) + 1)%Z. rewrite plus_IZR. apply W1. lra.
    - subst th. apply lattice_closed; [apply FC|]. intros dd Hdd. set (s := Rmin (th2 + dd / 2) ((th2 + (th1 + 2 * PI)) / 2)). exists s.
      assert (s <= th2 + dd / 2) by apply Rmin_l. assert (s <= (th2 + (th1 + 2 * PI)) / 2) by apply Rmin_r. assert (th2 < s) by (apply Rmin_glb_lt; lra).
      split; [rewrite Rabs_right by lra; lra|]. exists (getWindingNumber pl (q s)). apply W2. lra.
    - exists (getWindingNumber pl (q th)). apply W2. lra. }
  set (m := (th1 + th2) / 2). assert (Hm : th1 < m < th2) by (unfold m; lra). set (n := (th2 + (th1 + 2 * PI)) / 2). assert (Hn : th2 < n < th1 + 2 * PI) by (unfold n; lra).
  assert (Fm : forall th, th1 < th < th1 + 2 * PI -> F th = F n).
  { intros th Hth. destruct (Rle_dec th n); [apply lattice_on; [lra|intros; apply FC|intros; apply FL; lra]|symmetry; apply lattice_on; [lra|intros; apply FC|intros; apply FL; lra]]. }
  set (u := getWindingNumber pl (q n)). assert (Fn : F n = 2 * PI * IZR u) by (apply W2; auto).
  assert (V1 : forall th, th1 < th < th2 -> getWindingNumber pl (q th) = (u - 1)%Z).
  { intros th Hth. pose proof (W1 th Hth) as E. rewrite (Fm th), Fn in E by lra. apply eq_IZR. rewrite minus_IZR. apply Rmult_eq_reg_l with (2 * PI); lra. }
  assert (V2 : forall th, th2 < th < th1 + 2 * PI -> getWindingNumber pl (q th) = u).
  { intros th Hth. pose proof (W2 th Hth) as E. rewrite (Fm th), Fn in E by lra. apply eq_IZR. apply Rmult_eq_reg_l with (2 * PI); lra. }
  exists u. split; [split; [|split]|split; auto].
  - intros z Hz Oz. destruct (onCircle_ex x r z th1 Hr Hz) as (th & Hth & ->).
    assert (N1 : th <> th1 + 2 * PI). { intros ->. apply Oz. apply HP. left. intros O. apply (O t1); [lra|]. rewrite E1. rewrite <- (onCircle_per x r th1 1). f_equal. ring. }
    assert (N2 : th <> th2). { intros ->. apply Oz. apply HP. right. left. intros O. apply (O t2); [lra|]. exact E2. }
    destruct (Rlt_dec th th2); [right; apply V1; lra|left; apply V2; lra].
  - exists (q n). split; [apply CD|]. split; [apply OP; lra|reflexivity].
  - exists (q m). split; [apply CD|]. split; [apply OP; lra|apply V1; lra].
Qed.

Lemma circle_values pl x P1 a1 b1 P2 a2 b2 rest : germ pl x P1 a1 b1 P2 a2 b2 rest -> exists r0, 0 < r0 /\ forall r, 0 < r < r0 -> exists u, twoValued pl x r u.
Proof.
  intros G. destruct (circle_arcs _ _ _ _ _ _ _ _ _ G) as (r0 & H0 & R1 & R2 & K). exists r0. split; [auto|]. intros r Hr.
  destruct G as (S1 & S2 & A1 & A2 & _). destruct (armIn_hit x P1 a1 b1 r S1 A1 ltac:(lra) ltac:(lra)) as (t1 & T1 & D1 & _). destruct (armOut_hit x P2 a2 b2 r S2 A2 ltac:(lra) ltac:(lra)) as (t2 & T2 & D2 & _).
  destruct (onCircle_ex x r (P1 t1) 0 ltac:(lra) D1) as (th1 & _ & E1). destruct (onCircle_ex x r (P2 t2) th1 ltac:(lra) D2) as (th2 & B2 & E2).
  destruct (K r Hr t1 t2 th1 th2 ltac:(lra) ltac:(lra) E1 E2 B2) as (u & T & _). exists u. exact T.
Qed.

(** ** The two values do not depend on the circle *)
Lemma twoValued_unique pl x r u w : twoValued pl x r u -> twoValued pl x r w -> u = w.
Proof.
  intros (_ & (q1 & D1 & O1 & E1) & (q2 & D2 & O2 & E2)) (H & _). destruct (H q1 D1 O1), (H q2 D2 O2); lia.
Qed.

Lemma pred_connected (P : R -> Prop) a b : a <= b -> (forall t, a <= t <= b -> exists d, 0 < d /\ forall s, a <= s <= b -> Rabs (s - t) < d -> (P s <-> P t)) -> P a -> P b.
Proof.
  intros Hab Hl Pa. set (cl := fun t => Rmax a (Rmin b t)).
  assert (clL : forall t x, Rabs (cl x - cl t) <= Rabs (x - t)). { intros t x. unfold cl, Rmax, Rmin, Rabs. repeat destruct (Rle_dec _ _); repeat destruct (Rcase_abs _); lra. }
  assert (clI : forall t, a <= cl t <= b). { intros t. unfold cl, Rmax, Rmin. repeat destruct (Rle_dec _ _); lra. }
  assert (clE : forall t, a <= t <= b -> cl t = t). { intros t Ht. unfold cl, Rmax, Rmin. repeat destruct (Rle_dec _ _); lra. }
  set (f := fun t => if pdec (P (cl t)) then 2 * PI * 1 else 2 * PI * 0).
  assert (E : f a = f b).
  { apply lattice_const.
    - intros t e He. destruct (Hl (cl t) (clI t)) as (d & Hd & H). exists d. split; [auto|]. intros x [_ Hx]. cbn in *. unfold R_dist in *.
      assert (Q : P (cl x) <-> P (cl t)). { apply H; [apply clI|]. eapply Rle_lt_trans; [apply clL|exact Hx]. }
      unfold f. destruct (pdec (P (cl x))), (pdec (P (cl t))); try tauto; rewrite Rminus_diag_eq, Rabs_R0; auto.
    - intros t. unfold f. destruct (pdec _); [exists 1%Z|exists 0%Z]; reflexivity. }
  unfold f in E. rewrite !clE in E by lra. pose proof PI_RGT_0. destruct (pdec (P b)); [auto|]. destruct (pdec (P a)); [lra|contradiction].
Qed.

Definition radial (x q : vec) (k : R) : vec := mkV (vx x + k * (vx q - vx x)) (vy x + k * (vy q - vy x)).

Lemma radial_dist x q k : dist x (radial x q k) = Rabs k * dist x q.
Proof.
  unfold dist, radial. cbn [vx vy]. rewrite <- (sqrt_Rsqr_abs k). rewrite <- sqrt_mult_alt by apply Rle_0_sqr. f_equal. unfold Rsqr. rring.
Qed.

Lemma radial_move x q k : dist q (radial x q k) = Rabs (k - 1) * dist x q.
Proof.
  unfold dist, radial. cbn [vx vy]. rewrite <- (sqrt_Rsqr_abs (k - 1)). rewrite <- sqrt_mult_alt by apply Rle_0_sqr. f_equal. unfold Rsqr. rring.
Qed.

Lemma circle_move pl x q r : smallBulges pl -> 0 < r -> dist x q = r -> ~ onPath pl q ->
  exists d, 0 < d /\ forall r', 0 < r' -> Rabs (r' - r) < d -> exists q', dist x q' = r' /\ ~ onPath pl q' /\ getWindingNumber pl q' = getWindingNumber pl q.
Proof.
  intros Hb Hr Hd Ho. destruct (C47_locally_constant pl q Hb Ho) as (d & Hd0 & H). exists d. split; [auto|]. intros r' Hr' Hc.
  exists (radial x q (r' / r)). split.
  - rewrite radial_dist, Hd, Rabs_right; [field; lra|]. apply Rle_ge, Rlt_le, Rdiv_lt_0_compat; auto.
  - apply H. rewrite radial_move, Hd. replace (r' / r - 1) with ((r' - r) / r) by (field; lra). unfold Rdiv. rewrite Rabs_mult, (Rabs_right (/ r)) by (apply Rle_ge, Rlt_le, Rinv_0_lt_compat; auto).
    rewrite Rmult_assoc, Rinv_l, Rmult_1_r by lra. exact Hc.
Qed.

(** the values on all small circles around x *)
Definition nearVal (pl : polyline) (x : vec) (u : Z) : Prop := exists r0, 0 < r0 /\ forall r, 0 < r < r0 -> twoValued pl x r u.

Lemma nearVal_ex pl x r0 : smallBulges pl -> 0 < r0 -> (forall r, 0 < r < r0 -> exists u, twoValued pl x r u) -> exists u, nearVal pl x u.
Proof.
  intros Hb H0 H. destruct (H (r0 / 2) ltac:(lra)) as (u & Hu).
  assert (Loc : forall r, 0 < r < r0 -> exists d, 0 < d /\ forall s, 0 < s < r0 -> Rabs (s - r) < d -> (twoValued pl x s u <-> twoValued pl x r u)).
  { intros r Hr. destruct (H r Hr) as (w & Hw). pose proof Hw as (_ & (q1 & D1 & O1 & E1) & (q2 & D2 & O2 & E2)).
    destruct (circle_move pl x q1 r Hb ltac:(lra) D1 O1) as (d1 & Hd1 & M1). destruct (circle_move pl x q2 r Hb ltac:(lra) D2 O2) as (d2 & Hd2 & M2).
    exists (Rmin d1 d2). split; [now apply Rmin_glb_lt|]. intros s Hs Hc.
    assert (Ws : twoValued pl x s w).
    { destruct (H s Hs) as (w' & Hw'). replace w with w'; [auto|]. destruct Hw' as (Hv & _).
      destruct (M1 s ltac:(lra)) as (p1 & F1 & G1 & V1); [eapply Rlt_le_trans; [exact Hc|apply Rmin_l]|]. destruct (M2 s ltac:(lra)) as (p2 & F2 & G2 & V2); [eapply Rlt_le_trans; [exact Hc|apply Rmin_r]|].
      destruct (Hv p1 F1 G1), (Hv p2 F2 G2); lia. }
    split; intros Hv; [replace u with w by (eapply twoValued_unique; [exact Ws|exact Hv]); auto|replace u with w by (eapply twoValued_unique; [exact Hw|exact Hv]); auto]. }
  exists u, r0. split; [auto|]. intros r Hr. destruct (Rle_dec (r0 / 2) r) as [L|L].
  - apply (pred_connected (fun s => twoValued pl x s u) (r0 / 2) r L); [|auto]. intros t Ht. destruct (Loc t ltac:(lra)) as (d & Hd & Hl). exists d. split; [auto|]. intros s Hs Hc. apply Hl; [lra|auto].
  - apply Rnot_le_lt in L. pose proof (pred_connected (fun s => twoValued pl x (r0 / 2 + r - s) u) r (r0 / 2) ltac:(lra)) as K. cbn beta in K.
    replace (r0 / 2 + r - r0 / 2) with r in K by ring. apply K; [|replace (r0 / 2 + r - r) with (r0 / 2) by ring; auto].
    intros t Ht. destruct (Loc (r0 / 2 + r - t) ltac:(lra)) as (d & Hd & Hl). exists d. split; [auto|]. intros s Hs Hc. apply Hl; [lra|].
    replace (r0 / 2 + r - s - (r0 / 2 + r - t)) with (- (s - t)) by ring. now rewrite Rabs_Ropp.
Qed.

Lemma nearVal_unique pl x u w : nearVal pl x u -> nearVal pl x w -> u = w.
Proof.
  intros (r1 & H1 & V1) (r2 & H2 & V2). pose proof (Rmin_l r1 r2). pose proof (Rmin_r r1 r2). assert (0 < Rmin r1 r2) by (now apply Rmin_glb_lt).
  apply (twoValued_unique pl x (Rmin r1 r2 / 2)); [apply V1|apply V2]; lra.
Qed.

Lemma nearVal_move pl x u : nearVal pl x u -> exists d, 0 < d /\ forall y w, dist x y < d -> nearVal pl y w -> w = u.
Proof.
  intros (r0 & H0 & V). exists r0. split; [auto|]. intros y w Hy Hw. destruct (classic (x = y)) as [<-|N].
  { eapply nearVal_unique; [exact Hw|]. exists r0. auto. }
  pose proof (dist_pos _ _ N) as Dp. destruct Hw as (r1 & H1 & W). set (r := Rmin (r1 / 2) (Rmin (dist x y / 2) ((r0 - dist x y) / 2))).
  assert (0 < r) by (repeat apply Rmin_glb_lt; lra). assert (r <= r1 / 2) by apply Rmin_l. assert (r <= dist x y / 2) by (eapply Rle_trans; [apply Rmin_r|apply Rmin_l]). assert (r <= (r0 - dist x y) / 2) by (eapply Rle_trans; [apply Rmin_r|apply Rmin_r]).
  destruct (W r ltac:(lra)) as (_ & (q1 & D1 & O1 & E1) & (q2 & D2 & O2 & E2)).
  assert (B : forall q, dist y q = r -> 0 < dist x q < r0). { intros q Dq. pose proof (dist_tri x y q). pose proof (dist_tri x q y). rewrite (dist_sym' q y) in *. lra. }
  destruct (V _ (B q1 D1)) as (K1 & _). destruct (V _ (B q2 D2)) as (K2 & _). destruct (K1 q1 eq_refl O1), (K2 q2 eq_refl O2); lia.
Qed.

(** constant along a continuous path all of whose points have such a value *)
Lemma nearVal_along pl (P : R -> vec) c : smoothP P -> (forall t, 0 <= t <= 1 -> exists u, nearVal pl (P t) u) -> nearVal pl (P 0) c -> forall t, 0 <= t <= 1 -> nearVal pl (P t) c.
Proof.
  intros Hs Hex H0 t Ht. apply (pred_connected (fun s => nearVal pl (P s) c) 0 t ltac:(lra)); [|auto].
  intros s Hs1. destruct (Hex s ltac:(lra)) as (u & Hu). destruct (nearVal_move pl (P s) u Hu) as (d & Hd & Hm). destruct (smooth_cont P s Hs) as [CX CY].
  pose proof (path_dist_continuous (P s) P s CX CY) as C. apply continuity_pt_filterlim in C. destruct (C d Hd) as (a & Ha & Hc). exists a. split; [auto|]. intros s' Hs' Hcl.
  assert (Dl : dist (P s) (P s') < d).
  { destruct (Req_dec s' s) as [->|Ns]; [rewrite dist_self; auto|]. specialize (Hc s' (conj (conj I (fun e => Ns (eq_sym e))) Hcl)). cbn in Hc. unfold R_dist in Hc. rewrite dist_self, Rminus_0_r in Hc. eapply Rle_lt_trans; [apply Rle_abs|exact Hc]. }
  destruct (Hex s' ltac:(lra)) as (w & Hw). pose proof (Hm _ _ Dl Hw). subst w. split; intros Hv; [replace c with u by (eapply nearVal_unique; [exact Hw|exact Hv]); auto|replace c with u by (eapply nearVal_unique; [exact Hu|exact Hv]); auto].
Qed.

(** ** Points of a simple closed polyline *)
(** the path does not touch itself: no two points of it, one at fraction s of segment i and one at fraction t of segment j, coincide *)
Definition simplePath (pl : polyline) : Prop :=
  forall i j s t, (i < length (vertexes pl))%nat -> (j < length (vertexes pl))%nat -> 0 <= s < 1 -> 0 <= t < 1 -> seg pl i s = seg pl j t -> i = j /\ s = t.

Lemma chord_shift v1 v2 s t : 0 <= s -> s <= t -> dist (segPath v1 v2 s) (segPath v1 v2 t) = dist (pos v1) (segPath v1 v2 (t - s)).
Proof.
  intros Hs Hst. destruct (Rlt_dec (Rabs (bulge v1)) (1 / 100000)) as [Hl|Hl].
  - rewrite !segPath_line by exact Hl. unfold dist, lerp. cbn [vx vy]. f_equal. rring.
  - rewrite !segPath_arc by exact Hl. set (c := ctrOf v1 v2). set (th := sweep (bulge v1)).
    replace (rot c (t * th) (pos v1)) with (rot c ((t - s) * th) (rot c (s * th) (pos v1))) by (rewrite rot_rot; f_equal; ring).
    rewrite !chord_rot, dist_rot. reflexivity.
Qed.

Lemma seg_armOut v1 v2 s : Rabs (bulge v1) <= 1 -> pos v1 <> pos v2 -> 0 <= s < 1 -> armOut (segPath v1 v2 s) (segPath v1 v2) s 1.
Proof.
  intros Hb N Hs. split; [lra|]. split; [reflexivity|]. intros a b Ha Hab Hb1. rewrite !chord_shift by lra. apply start_dist_mono; auto; lra.
Qed.

Lemma seg_armIn v1 v2 s : Rabs (bulge v1) <= 1 -> pos v1 <> pos v2 -> 0 < s <= 1 -> armIn (segPath v1 v2 s) (segPath v1 v2) 0 s.
Proof.
  intros Hb N Hs. split; [lra|]. split; [reflexivity|]. intros a b Ha Hab Hb1. rewrite (dist_sym' _ (segPath v1 v2 a)), (dist_sym' _ (segPath v1 v2 b)), !chord_shift by lra. apply start_dist_mono; auto; lra.
Qed.

Section Simple.
Variable pl : polyline.
Hypothesis CL : closedPline pl.
Hypothesis SB : smallBulges pl.
Hypothesis SP : simplePath pl.
Let n := length (vertexes pl).
Let sg (k : nat) : vertex * vertex := (vert pl k 0, vert pl k 1).

Lemma n2 : (2 <= n)%nat.
Proof. apply CL. Qed.

Lemma sg_in k : (k < n)%nat -> In (sg k) (pathSegs pl).
Proof. intros Hk. destruct (seg_at pl k (proj1 CL) (proj2 CL) Hk) as (_ & _ & H). exact H. Qed.

Lemma sg_small k : (k < n)%nat -> Rabs (bulge (vert pl k 0)) <= 1.
Proof. intros Hk. exact (seg_start_small pl _ _ SB (sg_in k Hk)). Qed.

Lemma sg_ne k : (k < n)%nat -> pos (vert pl k 0) <> pos (vert pl k 1).
Proof.
  intros Hk E. assert (C : seg pl k 0 = seg pl k (1 / 2)).
  { unfold seg. rewrite segPath_0. set (v1 := vert pl k 0) in *. set (v2 := vert pl k 1) in *. destruct (Rlt_dec (Rabs (bulge v1)) (1 / 100000)) as [Hl|Hl].
    - rewrite segPath_line by exact Hl. rewrite <- E. unfold lerp. apply vec_eq; cbn [vx vy]; apply Rminus_diag_uniq; ring.
    - rewrite segPath_arc by exact Hl. unfold ctrOf, ctr. rewrite <- E. unfold rot. apply vec_eq; cbn [vx vy]; apply Rminus_diag_uniq; field. }
  destruct (SP k k 0 (1 / 2) Hk Hk ltac:(lra) ltac:(lra) C) as [_ F]. lra.
Qed.

Lemma sg_next k : (k < n)%nat -> seg pl k 1 = seg pl ((k + 1) mod n) 0.
Proof. intros Hk. unfold seg. rewrite segPath_1, segPath_0. pose proof n2. unfold vert. fold n. rewrite Nat.add_0_r, Nat.mod_mod by lia. reflexivity. Qed.

(** which segments pass through a point *)
Lemma through_interior i k s t : (i < n)%nat -> (k < n)%nat -> 0 < t < 1 -> 0 <= s <= 1 -> seg pl k s = seg pl i t -> k = i /\ s = t.
Proof.
  intros Hi Hk Ht Hs E. pose proof n2. destruct (Req_dec s 1) as [->|N].
  - rewrite (sg_next k Hk) in E. destruct (SP _ i 0 t ltac:(apply Nat.mod_upper_bound; lia) Hi ltac:(lra) ltac:(lra) E) as [_ F]. lra.
  - apply (SP k i s t); auto; lra.
Qed.

Lemma through_vertex j k s : (j < n)%nat -> (k < n)%nat -> 0 <= s <= 1 -> seg pl k s = seg pl j 0 -> (k = j /\ s = 0) \/ ((k + 1) mod n = j /\ s = 1).
Proof.
  intros Hj Hk Hs E. pose proof n2. destruct (Req_dec s 1) as [->|N].
  - right. rewrite (sg_next k Hk) in E. destruct (SP _ j 0 0 ltac:(apply Nat.mod_upper_bound; lia) Hj ltac:(lra) ltac:(lra) E) as [F _]. auto.
  - left. apply (SP k j s 0); auto; lra.
Qed.

Lemma onPath_sg q : onPath pl q <-> exists k s, (k < n)%nat /\ 0 <= s <= 1 /\ q = seg pl k s.
Proof.
  split.
  - intros (v1 & v2 & Hin & O). apply at_seg in Hin; [|apply CL]. destruct Hin as (k & Hk & -> & ->). apply onSeg_path in O. destruct O as (s & Hs & ->). exists k, s. auto.
  - intros (k & s & Hk & Hs & ->). exists (vert pl k 0), (vert pl k 1). split; [now apply sg_in|]. apply onSeg_path. exists s. auto.
Qed.

Lemma perm_one i : (i < n)%nat -> exists l, Permutation (seq 0 n) (i :: l) /\ forall k, In k l -> (k < n)%nat /\ k <> i.
Proof.
  intros Hi. destruct (in_split i (seq 0 n)) as (l1 & l2 & E); [apply in_seq; lia|]. exists (l1 ++ l2). split; [rewrite E; symmetry; apply Permutation_middle|].
  intros k Hk. assert (In k (seq 0 n)) as Hs by (rewrite E; apply in_app_iff in Hk; apply in_app_iff; cbn [In]; tauto). apply in_seq in Hs. split; [lia|].
  intros ->. pose proof (seq_NoDup n 0) as ND. rewrite E in ND. apply NoDup_remove_2 in ND. contradiction.
Qed.

Lemma perm_two i j : (i < n)%nat -> (j < n)%nat -> i <> j -> exists l, Permutation (seq 0 n) (i :: j :: l) /\ forall k, In k l -> (k < n)%nat /\ k <> i /\ k <> j.
Proof.
  intros Hi Hj N. destruct (perm_one i Hi) as (l & P & H). assert (Hin : In j l). { assert (In j (i :: l)) as [E|Q] by (apply (Permutation_in _ P), in_seq; lia); [congruence|auto]. }
  destruct (in_split j l Hin) as (l1 & l2 & ->). exists (l1 ++ l2). split; [eapply perm_trans; [exact P|]; constructor; symmetry; apply Permutation_middle|].
  intros k Hk. assert (In k (l1 ++ j :: l2)) as Hs by (apply in_app_iff in Hk; apply in_app_iff; cbn [In]; tauto). destruct (H k Hs) as [A B]. split; [auto|]. split; [auto|].
  intros ->. pose proof (Permutation_NoDup P (seq_NoDup n 0)) as ND. apply NoDup_cons_iff in ND. destruct ND as [_ ND]. apply NoDup_remove_2 in ND. contradiction.
Qed.

Lemma turnSum_perm l l' q : Permutation l l' -> turnSum l q = turnSum l' q.
Proof. intros P. apply sumR_perm, Permutation_map, P. Qed.

Lemma turnSum_sg l q : Permutation (seq 0 n) l -> ~ onPath pl q -> turnSum (map sg l) q = 2 * PI * IZR (getWindingNumber pl q).
Proof.
  intros P O. rewrite <- (turnSum_winding pl q (proj1 CL) SB O). apply turnSum_perm. eapply perm_trans; [|apply (segs_perm pl CL)]. apply Permutation_map. symmetry. exact P.
Qed.

Lemma offPart_not P a b q : ~ offPart P a b q <-> exists t, a <= t <= b /\ q = P t.
Proof.
  split; [|intros (t & Ht & ->) H; now apply (H t Ht)]. intros N. apply NNPP. intros M. apply N. intros t Ht E. apply M. exists t. auto.
Qed.

Lemma germ_interior i t : (i < n)%nat -> 0 < t < 1 -> exists rest, germ pl (seg pl i t) (seg pl i) 0 t (seg pl i) t 1 rest.
Proof.
  intros Hi Ht. destruct (perm_one i Hi) as (l & P & Hl). exists (map sg l). pose proof (sg_small i Hi) as Bi. pose proof (sg_ne i Hi) as Ni.
  assert (Sm : smoothP (seg pl i)) by apply seg_smoothP.
  split; [exact Sm|]. split; [exact Sm|]. split; [apply seg_armIn; auto; lra|]. split; [apply seg_armOut; auto; lra|]. split.
  - intros v1 v2 Hin. apply in_map_iff in Hin. destruct Hin as (k & E & Hk). injection E as <- <-. destruct (Hl k Hk) as [Hkn Nk]. split; [now apply sg_small|].
    intros O. apply onSeg_path in O. destruct O as (s & Hs & E). destruct (through_interior i k s t Hi Hkn Ht Hs (eq_sym E)). contradiction.
  - split; [|split].
    + intros q O. rewrite <- (turnSum_sg _ q P O). cbn [map]. rewrite part_split; [reflexivity|exact Sm|lra|].
      intros s Hs E. apply O. apply onPath_sg. exists i, s. auto.
    + intros q. rewrite onPath_sg, !offPart_not. split.
      * intros (k & s & Hk & Hs & ->). destruct (Nat.eq_dec k i) as [->|N].
        -- destruct (Rle_dec s t); [left|right; left]; exists s; split; auto; lra.
        -- right. right. exists (vert pl k 0), (vert pl k 1). split; [|apply onSeg_path; exists s; auto]. apply (in_map sg). assert (In k (i :: l)) as [E|Q] by (apply (Permutation_in _ P), in_seq; lia); [congruence|auto].
      * intros [(s & Hs & ->)|[(s & Hs & ->)|(v1 & v2 & Hin & O)]]; [exists i, s; repeat split; auto; lra|exists i, s; repeat split; auto; lra|].
        apply in_map_iff in Hin. destruct Hin as (k & E & Hk). injection E as <- <-. apply onSeg_path in O. destruct O as (s & Hs & ->). exists k, s. split; [now apply Hl|]. auto.
    + intros s s' Hs Hs' E. destruct (SP i i s s' Hi Hi ltac:(lra) ltac:(lra) E). lra.
Qed.

Lemma germ_vertex i : (i < n)%nat -> exists rest, germ pl (seg pl i 1) (seg pl i) 0 1 (seg pl ((i + 1) mod n)) 0 1 rest.
Proof.
  intros Hi. pose proof n2 as H2. set (j := ((i + 1) mod n)%nat). assert (Hj : (j < n)%nat) by (apply Nat.mod_upper_bound; lia).
  assert (Nij : i <> j). { unfold j. destruct (Nat.eq_dec (i + 1) n) as [E|N]; [rewrite E, Nat.mod_same by lia|rewrite Nat.mod_small by (clear - Hi N; lia)]; lia. }
  destruct (perm_two i j Hi Hj Nij) as (l & P & Hl). exists (map sg l). pose proof (sg_small i Hi) as Bi. pose proof (sg_ne i Hi) as Ni. pose proof (sg_small j Hj) as Bj. pose proof (sg_ne j Hj) as Nj.
  pose proof (sg_next i Hi) as Ex. fold j in Ex.
  assert (Si : smoothP (seg pl i)) by apply seg_smoothP. assert (Sj : smoothP (seg pl j)) by apply seg_smoothP.
  split; [exact Si|]. split; [exact Sj|]. split; [apply seg_armIn; auto; lra|]. split; [rewrite Ex; apply seg_armOut; auto; lra|]. split; [|split; [|split]].
  - intros v1 v2 Hin. apply in_map_iff in Hin. destruct Hin as (k & E & Hk). injection E as <- <-. destruct (Hl k Hk) as (Hkn & Nk & Nk'). split; [now apply sg_small|].
    intros O. apply onSeg_path in O. destruct O as (s & Hs & E). rewrite Ex in E. destruct (through_vertex j k s Hj Hkn Hs (eq_sym E)) as [[F _]|[F _]]; [contradiction|].
    apply Nk. unfold j in F. destruct (Nat.eq_dec (k + 1) n) as [E1|N1], (Nat.eq_dec (i + 1) n) as [E2|N2]; try rewrite E1, Nat.mod_same in F by lia; try rewrite E2, Nat.mod_same in F by lia; rewrite ?Nat.mod_small in F by lia; lia.
  - intros q O. rewrite <- (turnSum_sg _ q P O). cbn [map]. unfold turnSum. cbn [map fold_right fst snd sg]. unfold part. change (seg pl i) with (segPath (vert pl i 0) (vert pl i 1)). change (seg pl j) with (segPath (vert pl j 0) (vert pl j 1)). ring.
  - intros q. rewrite onPath_sg, !offPart_not. split.
    + intros (k & s & Hk & Hs & ->). destruct (Nat.eq_dec k i) as [->|N]; [left; exists s; auto|]. destruct (Nat.eq_dec k j) as [->|N']; [right; left; exists s; auto|].
      right. right. exists (vert pl k 0), (vert pl k 1). split; [|apply onSeg_path; exists s; auto]. apply (in_map sg). assert (In k (i :: j :: l)) as [E|[E|Q]] by (apply (Permutation_in _ P), in_seq; lia); [congruence|congruence|auto].
    + intros [(s & Hs & ->)|[(s & Hs & ->)|(v1 & v2 & Hin & O)]]; [exists i, s; auto|exists j, s; auto|].
      apply in_map_iff in Hin. destruct Hin as (k & E & Hk). injection E as <- <-. apply onSeg_path in O. destruct O as (s & Hs & ->). exists k, s. split; [now apply Hl|]. auto.
  - intros s s' Hs Hs' E. destruct (SP i j s s' Hi Hj ltac:(lra) ltac:(lra) E). contradiction.
Qed.

Lemma sg_nearVal k t : (k < n)%nat -> 0 <= t <= 1 -> exists u, nearVal pl (seg pl k t) u.
Proof.
  intros Hk Ht. pose proof n2 as H2. destruct (Req_dec t 1) as [->|N1]; [|destruct (Req_dec t 0) as [->|N0]].
  - destruct (germ_vertex k Hk) as (rest & G). destruct (circle_values _ _ _ _ _ _ _ _ _ G) as (r0 & H0 & V). exact (nearVal_ex pl _ r0 SB H0 V).
  - set (i := ((k + (n - 1)) mod n)%nat). assert (Hi : (i < n)%nat) by (apply Nat.mod_upper_bound; lia).
    assert (E : ((i + 1) mod n)%nat = k). { unfold i. rewrite Nat.add_mod_idemp_l by lia. replace (k + (n - 1) + 1)%nat with (k + 1 * n)%nat by lia. rewrite Nat.mod_add by lia. apply Nat.mod_small, Hk. }
    rewrite <- E, <- (sg_next i Hi). destruct (germ_vertex i Hi) as (rest & G). destruct (circle_values _ _ _ _ _ _ _ _ _ G) as (r0 & H0 & V). exact (nearVal_ex pl _ r0 SB H0 V).
  - destruct (germ_interior k t Hk ltac:(lra)) as (rest & G). destruct (circle_values _ _ _ _ _ _ _ _ _ G) as (r0 & H0 & V). exact (nearVal_ex pl _ r0 SB H0 V).
Qed.

Lemma path_nearVal : exists c, forall q, onPath pl q -> nearVal pl q c.
Proof.
  pose proof n2 as H2. destruct (sg_nearVal 0 0 ltac:(lia) ltac:(lra)) as (c & Hc). exists c.
  assert (K : forall k, (k < n)%nat -> forall t, 0 <= t <= 1 -> nearVal pl (seg pl k t) c).
  { induction k as [|k IH]; intros Hk.
    - apply nearVal_along; [apply seg_smoothP|intros t Ht; now apply sg_nearVal|auto].
    - apply nearVal_along; [apply seg_smoothP|intros t Ht; now apply sg_nearVal|]. specialize (IH ltac:(lia) 1 ltac:(lra)). rewrite sg_next in IH by lia. rewrite Nat.mod_small in IH by lia. now rewrite Nat.add_1_r in IH. }
  intros q O. apply onPath_sg in O. destruct O as (k & s & Hk & Hs & ->). now apply K.
Qed.

(** the path has a point nearest to q *)
Lemma nearest (l : list nat) q : (forall k, In k l -> (k < n)%nat) -> l <> [] -> exists k s, In k l /\ 0 <= s <= 1 /\ forall j u, In j l -> 0 <= u <= 1 -> dist q (seg pl k s) <= dist q (seg pl j u).
Proof.
  induction l as [|k l IH]; intros Hl N; [congruence|].
  destruct (continuity_ab_min (fun u => dist q (seg pl k u)) 0 1) as (s & Hmin & Hs); [lra| |].
  { intros c _. apply continuity_pt_filterlim. apply seg_dist_continuous. }
  destruct l as [|k' l']; [exists k, s; split; [now left|]; split; [auto|]; intros j u [<-|[]] Hu; now apply Hmin|].
  destruct IH as (j & u & Hj & Hu & Hm); [intros; apply Hl; now right|discriminate|].
  destruct (Rle_dec (dist q (seg pl k s)) (dist q (seg pl j u))) as [L|L].
  - exists k, s. split; [now left|]. split; [auto|]. intros i w [<-|Hi] Hw; [now apply Hmin|]. eapply Rle_trans; [exact L|now apply Hm].
  - exists j, u. split; [now right|]. split; [auto|]. intros i w [<-|Hi] Hw; [|now apply Hm]. specialize (Hmin w Hw). cbn beta in Hmin. lra.
Qed.

Lemma dist_lerp p q t : 0 <= t <= 1 -> dist p (lerp p q t) = t * dist p q /\ dist q (lerp p q t) = (1 - t) * dist p q.
Proof.
  intros Ht. unfold dist, lerp. cbn [vx vy]. split.
  - rewrite <- (sqrt_square t) at 3 by lra. rewrite <- sqrt_mult_alt by nra. f_equal. rring.
  - rewrite <- (sqrt_square (1 - t)) by lra. rewrite <- sqrt_mult_alt by nra. f_equal. rring.
Qed.

Lemma off_value c q : (forall x, onPath pl x -> nearVal pl x c) -> ~ onPath pl q -> getWindingNumber pl q = c \/ getWindingNumber pl q = (c - 1)%Z.
Proof.
  intros Hc Ho. pose proof n2 as H2. destruct (nearest (seq 0 n) q) as (k & s & Hk & Hs & Hm); [intros k Hk; apply in_seq in Hk; lia|destruct n; [lia|discriminate]|]. apply in_seq in Hk.
  set (x := seg pl k s) in *. assert (Ox : onPath pl x) by (apply onPath_sg; exists k, s; repeat split; try apply Hs; lia). destruct (Hc x Ox) as (r0 & H0 & V).
  assert (Nx : x <> q) by (intros E; apply Ho; now rewrite <- E). pose proof (dist_pos _ _ Nx) as Dx. rewrite dist_sym' in Dx. set (D := dist q x) in *.
  set (t := 1 - Rmin (1 / 2) (r0 / 2 / D)). assert (Q0 : 0 < r0 / 2 / D) by (apply Rdiv_lt_0_compat; lra). assert (Q : 0 < Rmin (1 / 2) (r0 / 2 / D) <= 1 / 2) by (split; [apply Rmin_glb_lt; lra|apply Rmin_l]).
  assert (Ht : 0 < t < 1) by (unfold t; lra). set (y := lerp q x t).
  assert (OL : forall u, 0 <= u <= t -> ~ onPath pl (lerp q x u)).
  { intros u Hu O. apply onPath_sg in O. destruct O as (j & w & Hj & Hw & E). specialize (Hm j w ltac:(apply in_seq; lia) Hw). rewrite <- E in Hm. rewrite (proj1 (dist_lerp q x u ltac:(lra))) in Hm. fold D in Hm. nra. }
  assert (EW : getWindingNumber pl q = getWindingNumber pl y).
  { apply C47_constant_along_paths; [exact SB|]. exists (fun u => lerp q x (u * t)). split; [split; [|split]|].
    - unfold lerp. apply vec_eq; rcbn; ring.
    - unfold y, lerp. apply vec_eq; rcbn; ring.
    - intros u _. unfold lerp. cbn [vx vy]. split; [apply (ex_derive_continuous (V := R_NormedModule) (fun u0 => vx q + u0 * t * (vx x - vx q)))|apply (ex_derive_continuous (V := R_NormedModule) (fun u0 => vy q + u0 * t * (vy x - vy q)))]; auto_derive; auto.
    - intros u Hu. apply OL. nra. }
  rewrite EW. assert (Dy : dist x y = (1 - t) * D) by (apply dist_lerp; lra).
  assert (Hr : 0 < (1 - t) * D < r0). { split; [apply Rmult_lt_0_compat; lra|]. replace (1 - t) with (Rmin (1 / 2) (r0 / 2 / D)) by (unfold t; ring). eapply Rle_lt_trans; [apply Rmult_le_compat_r; [lra|apply Rmin_r]|]. replace (r0 / 2 / D * D) with (r0 / 2) by (field; lra). lra. }
  destruct (V _ Hr) as (K & _). apply K; [auto|]. apply OL. lra.
Qed.

(** one of the two sides has winding number 0 and the other 1 or -1; every point of the path is a limit of both sides *)
Lemma simple_winding : exists w, (w = 1%Z \/ w = (-1)%Z) /\ (forall q, ~ onPath pl q -> getWindingNumber pl q = 0%Z \/ getWindingNumber pl q = w) /\
  (forall x e, onPath pl x -> 0 < e -> (exists q, dist x q < e /\ ~ onPath pl q /\ getWindingNumber pl q = w) /\ (exists q, dist x q < e /\ ~ onPath pl q /\ getWindingNumber pl q = 0%Z)).
Proof.
  destruct path_nearVal as (c & Hc).
  destruct (C47_far_zero pl SB) as (B & HB & Hfar). set (f := mkV (B + 1) 0).
  assert (Df : B < dist (mkV 0 0) f). { unfold dist, f. cbn [vx vy]. rcbn. replace ((0 - (B + 1)) ^ 2 + (0 - 0) ^ 2) with ((B + 1) * (B + 1)) by ring. rewrite sqrt_square by lra. lra. }
  destruct (Hfar f Df) as [Of Wf]. assert (C01 : c = 0%Z \/ c = 1%Z) by (destruct (off_value c f Hc Of); lia).
  assert (L : forall x e, onPath pl x -> 0 < e -> (exists q, dist x q < e /\ ~ onPath pl q /\ getWindingNumber pl q = c) /\ (exists q, dist x q < e /\ ~ onPath pl q /\ getWindingNumber pl q = (c - 1)%Z)).
  { intros x e Ox He. destruct (Hc x Ox) as (r0 & H0 & V). pose proof (Rmin_l r0 e). pose proof (Rmin_r r0 e). assert (0 < Rmin r0 e) by (now apply Rmin_glb_lt).
    destruct (V (Rmin r0 e / 2) ltac:(lra)) as (_ & (q1 & D1 & O1 & E1) & (q2 & D2 & O2 & E2)). split; [exists q1|exists q2]; repeat split; auto; lra. }
  destruct C01 as [-> | ->].
  - exists (-1)%Z. split; [auto|]. split; [intros q Oq; destruct (off_value 0 q Hc Oq); lia|]. intros x e Ox He. destruct (L x e Ox He). split; auto.
  - exists 1%Z. split; [auto|]. split; [intros q Oq; destruct (off_value 1 q Hc Oq); lia|]. intros x e Ox He. destruct (L x e Ox He). split; auto.
Qed.
End Simple.
