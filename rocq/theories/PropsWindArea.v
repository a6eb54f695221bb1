(** * C55: the area of a closed polyline is the integral of its winding number over the plane *)
From Coq Require Import ZArith Reals Lra Lia Psatz List Bool Arith Permutation Sorted Classical.
From Coquelicot Require Import Coquelicot.
From Verif Require Import Base Num MathUtils PlineSegment SpatialIndex Polyline Intersects Combine StdLaws RGeom Spec PropsMath ArcGeom Polar PropsSegment PropsClosest PropsIntr PropsPlineIntr PropsPolyline PropsArea Turning PropsWinding PropsPlineIndex PropsFindIntr PropsRegion PropsCoincident PropsSlices PropsStitch PropsCombine PropsPieces PropsTrace PropsBoolOps PropsCover PropsEuler PropsBalance PropsRegionOps PropsJordan.
Import ListNotations.
Open Scope R_scope.

Lemma Rabs_def2_le x m : Rabs x <= m -> - m <= x <= m.
Proof. intros H. unfold Rabs in H. destruct (Rcase_abs x); lra. Qed.

(** ** Integrals and finitely many exceptions *)
Lemma is_RInt_except (f g : R -> R) (E : list R) : forall a b l, a <= b -> (forall x, a < x < b -> ~ In x E -> f x = g x) -> is_RInt f a b l -> is_RInt g a b l.
Proof.
  induction E as [|e E IH]; intros a b l Hab H Hf.
  - apply (is_RInt_ext (V := R_NormedModule) f); [|auto]. intros x Hx. rewrite Rmin_left, Rmax_right in Hx by lra. apply H; auto.
  - destruct (classic (a < e < b)) as [He|He].
    + assert (Ex : ex_RInt f a b) by (exists l; exact Hf).
      assert (E1 : ex_RInt f a e) by (apply (ex_RInt_Chasles_1 (V := R_CompleteNormedModule)) with (c := b); [lra|auto]).
      assert (E2 : ex_RInt f e b) by (apply (ex_RInt_Chasles_2 (V := R_CompleteNormedModule)) with (a := a); [lra|auto]).
      pose proof (RInt_correct (V := R_CompleteNormedModule) _ _ _ E1) as I1. pose proof (RInt_correct (V := R_CompleteNormedModule) _ _ _ E2) as I2.
      pose proof (is_RInt_Chasles (V := R_CompleteNormedModule) _ _ _ _ _ _ I1 I2) as I3.
      assert (El : plus (RInt f a e) (RInt f e b) = l) by (transitivity (RInt f a b); [symmetry; exact (is_RInt_unique (V := R_CompleteNormedModule) _ _ _ _ I3)|exact (is_RInt_unique (V := R_CompleteNormedModule) _ _ _ _ Hf)]).
      rewrite <- El. apply (is_RInt_Chasles (V := R_NormedModule)) with e.
      * apply IH; [lra| |exact I1]. intros x Hx N. apply H; [lra|]. intros [Q|Q]; [lra|contradiction].
      * apply IH; [lra| |exact I2]. intros x Hx N. apply H; [lra|]. intros [Q|Q]; [lra|contradiction].
    + apply IH; auto. intros x Hx N. apply H; [lra|]. intros [Q|Q]; [subst; apply He; lra|contradiction].
Qed.

Lemma RInt_nonneg_except (f : R -> R) (E : list R) a b l : a <= b -> (forall x, a < x < b -> ~ In x E -> 0 <= f x) -> is_RInt f a b l -> 0 <= l.
Proof.
  intros Hab H Hf. assert (Hg : is_RInt (fun x => Rmax 0 (f x)) a b l).
  { apply (is_RInt_except f _ E); auto. intros x Hx N. symmetry. apply Rmax_right. now apply H. }
  apply (is_RInt_ge_0 (fun x => Rmax 0 (f x)) a b l Hab Hg). intros x _. apply Rmax_l.
Qed.

Lemma is_RInt_zero (a b : R) : is_RInt (fun _ => 0) a b 0.
Proof. pose proof (is_RInt_const (V := R_NormedModule) a b 0) as H. unfold scal in H. cbn in H. unfold mult in H. cbn in H. rewrite Rmult_0_r in H. exact H. Qed.

Lemma is_RInt_c (a b c : R) : is_RInt (fun _ => c) a b ((b - a) * c).
Proof. pose proof (is_RInt_const (V := R_NormedModule) a b c) as H. exact H. Qed.

(** a function that agrees with f inside (c, d) and vanishes outside it *)
Lemma is_RInt_window (f g : R -> R) a b c d l : a <= c -> c <= d -> d <= b -> is_RInt f c d l ->
  (forall x, a < x < b -> c < x < d -> g x = f x) -> (forall x, a < x < b -> x < c \/ d < x -> g x = 0) -> is_RInt g a b l.
Proof.
  intros Hac Hcd Hdb Hf H1 H2.
  assert (I1 : is_RInt g a c 0). { apply (is_RInt_ext (V := R_NormedModule) (fun _ => 0)); [|apply is_RInt_zero]. intros x Hx. rewrite Rmin_left, Rmax_right in Hx by lra. symmetry. apply H2; lra. }
  assert (I2 : is_RInt g c d l). { apply (is_RInt_ext (V := R_NormedModule) f); [|auto]. intros x Hx. rewrite Rmin_left, Rmax_right in Hx by lra. symmetry. apply H1; lra. }
  assert (I3 : is_RInt g d b 0). { apply (is_RInt_ext (V := R_NormedModule) (fun _ => 0)); [|apply is_RInt_zero]. intros x Hx. rewrite Rmin_left, Rmax_right in Hx by lra. symmetry. apply H2; lra. }
  pose proof (is_RInt_Chasles (V := R_NormedModule) _ _ _ _ _ _ (is_RInt_Chasles (V := R_NormedModule) _ _ _ _ _ _ I1 I2) I3) as K.
  unfold plus in K. cbn in K. rewrite Rplus_0_l, Rplus_0_r in K. exact K.
Qed.

(** ** Continuous branches of the angle *)
Definition phi (X Y : R) : R := PI - 2 * atan (Y / (sqrt (X * X + Y * Y) - X)).
Definition psi (X Y : R) : R := 2 * atan (Y / (sqrt (X * X + Y * Y) + X)).

Lemma half_tan t : cos (2 * atan t) = (1 - t * t) / (1 + t * t) /\ sin (2 * atan t) = 2 * t / (1 + t * t).
Proof.
  pose proof (cos_atan t) as C. pose proof (sin_atan t) as S. assert (P : 0 < 1 + t * t) by nra.
  replace (t ^ 2) with (t * t) in * by ring. rewrite cos_2a, sin_2a. rewrite C, S. unfold Rsqr.
  pose proof (sqrt_sqrt (1 + t * t) ltac:(lra)) as Q. pose proof (sqrt_lt_R0 _ P) as Q0. set (s := sqrt (1 + t * t)) in *. rewrite <- Q. split; field; lra.
Qed.

Lemma root_pos X Y : (Y <> 0 \/ X < 0) -> 0 < sqrt (X * X + Y * Y) - X.
Proof.
  intros H. destruct (Rlt_dec X 0) as [L|L]; [pose proof (sqrt_pos (X * X + Y * Y)); lra|]. destruct H as [H|H]; [|lra].
  assert (X < sqrt (X * X + Y * Y)); [|lra]. rewrite <- (sqrt_square X) at 1 by lra. apply sqrt_lt_1_alt. split; [nra|]. assert (0 < Y * Y) by nra. lra.
Qed.

Lemma phi_polar X Y : (Y <> 0 \/ X < 0) -> 0 < phi X Y < 2 * PI /\ X = sqrt (X * X + Y * Y) * cos (phi X Y) /\ Y = sqrt (X * X + Y * Y) * sin (phi X Y).
Proof.
  intros H. pose proof (root_pos X Y H) as K. unfold phi. set (R := sqrt (X * X + Y * Y)) in *. set (t := Y / (R - X)).
  pose proof (atan_bound t) as [B1 B2]. split; [lra|].
  assert (RR : R * R = X * X + Y * Y) by (apply sqrt_sqrt; nra). assert (R0 : 0 < R). { assert (0 <= R) by apply sqrt_pos. destruct (Req_dec R 0) as [E|N]; [|lra]. rewrite E in RR. assert (X * X = 0 /\ Y * Y = 0) as [Z1 Z2] by (split; nra). destruct H as [H|H]; [exfalso; apply H; nra|nra]. }
  destruct (half_tan t) as [C S]. assert (T1 : 1 + t * t = 2 * R / (R - X)). { unfold t. field_simplify_eq; [|lra]. nra. }
  assert (T2 : 1 - t * t = - (2 * X) / (R - X)). { unfold t. field_simplify_eq; [|lra]. nra. }
  rewrite cos_minus, sin_minus, cos_PI, sin_PI, C, S, T1, T2. unfold t. split; field; lra.
Qed.

Lemma psi_polar X Y : (Y <> 0 \/ 0 < X) -> - PI < psi X Y < PI /\ X = sqrt (X * X + Y * Y) * cos (psi X Y) /\ Y = sqrt (X * X + Y * Y) * sin (psi X Y).
Proof.
  intros H. assert (K : 0 < sqrt (X * X + Y * Y) + X). { pose proof (root_pos (- X) Y ltac:(destruct H; [now left|right; lra])) as K. replace (- X * - X) with (X * X) in K by ring. lra. }
  unfold psi. set (R := sqrt (X * X + Y * Y)) in *. set (t := Y / (R + X)).
  pose proof (atan_bound t) as [B1 B2]. split; [lra|].
  assert (RR : R * R = X * X + Y * Y) by (apply sqrt_sqrt; nra). assert (R0 : 0 < R). { assert (0 <= R) by apply sqrt_pos. destruct (Req_dec R 0) as [E|N]; [|lra]. rewrite E in RR. assert (X * X = 0 /\ Y * Y = 0) as [Z1 Z2] by (split; nra). destruct H as [H|H]; [exfalso; apply H; nra|nra]. }
  destruct (half_tan t) as [C S]. assert (T1 : 1 + t * t = 2 * R / (R + X)). { unfold t. field_simplify_eq; [|lra]. nra. }
  assert (T2 : 1 - t * t = (2 * X) / (R + X)). { unfold t. field_simplify_eq; [|lra]. nra. }
  rewrite C, S, T1, T2. unfold t. split; field; lra.
Qed.

Lemma phi_angU p q : (vy q <> vy p \/ vx q < vx p) -> angU p q = phi (vx q - vx p) (vy q - vy p).
Proof.
  intros H. set (X := vx q - vx p). set (Y := vy q - vy p). assert (H' : Y <> 0 \/ X < 0) by (unfold X, Y; destruct H; [left; lra|right; lra]).
  destruct (phi_polar X Y H') as (B & E1 & E2). 
  assert (R0 : 0 < sqrt (X * X + Y * Y)). { apply sqrt_lt_R0. destruct H'; [assert (0 < Y * Y) by nra|assert (0 < X * X) by nra]; nra. }
  apply (congruent_unique' _ _ 0); [apply (angU_congruent p q _ _ R0); auto|pose proof (angU_bounds p q); lra|lra].
Qed.

Lemma psi_angU p q : (vy q <> vy p \/ vx p < vx q) -> congruent (angU p q) (psi (vx q - vx p) (vy q - vy p)).
Proof.
  intros H. set (X := vx q - vx p). set (Y := vy q - vy p). assert (H' : Y <> 0 \/ 0 < X) by (unfold X, Y; destruct H; [left; lra|right; lra]).
  destruct (psi_polar X Y H') as (B & E1 & E2). 
  assert (R0 : 0 < sqrt (X * X + Y * Y)). { apply sqrt_lt_R0. destruct H'; [assert (0 < Y * Y) by nra|assert (0 < X * X) by nra]; nra. }
  apply (angU_congruent p q _ _ R0); auto.
Qed.

Lemma psi_high p q : vy p < vy q -> psi (vx q - vx p) (vy q - vy p) = angU p q.
Proof.
  intros H. assert (N : q <> p) by (intros ->; lra). pose proof (angU_low p q N) as L. assert (angU p q < PI) by (apply Rnot_le_lt; intros Q; apply L in Q; lra).
  pose proof (angU_bounds p q). destruct (psi_polar (vx q - vx p) (vy q - vy p) ltac:(left; lra)) as (B & _).
  symmetry. apply (congruent_unique' _ _ (- PI)); [apply psi_angU; left; lra|lra|lra].
Qed.

Lemma psi_low p q : vy q < vy p -> psi (vx q - vx p) (vy q - vy p) = angU p q - 2 * PI.
Proof.
  intros H. assert (N : q <> p) by (intros ->; lra). pose proof (angU_low p q N) as L. assert (PI <= angU p q) by (apply L; lra).
  pose proof (angU_bounds p q). destruct (psi_polar (vx q - vx p) (vy q - vy p) ltac:(left; lra)) as (B & _ & E).
  assert (angU p q <> PI). { intros E1. destruct (angU_polar p q N) as (_ & E2 & _). rewrite E1, sin_PI in E2. lra. }
  destruct (psi_angU p q ltac:(left; lra)) as (k & Ek). symmetry. apply (congruent_unique' _ _ (- PI)); [exists (k + 1)%Z; rewrite plus_IZR, Ek; ring|lra|lra].
Qed.

Lemma branch_cont (X Y : R -> R) t : continuous X t -> continuous Y t -> (Y t <> 0 \/ X t < 0 -> continuity_pt (fun u => phi (X u) (Y u)) t) /\ (Y t <> 0 \/ 0 < X t -> continuity_pt (fun u => psi (X u) (Y u)) t).
Proof.
  intros CX CY.
  assert (CR : continuous (fun u => sqrt (X u * X u + Y u * Y u)) t).
  { apply (continuous_comp (fun u => X u * X u + Y u * Y u) sqrt); [|apply continuous_sqrt].
    apply (continuous_plus (V := R_NormedModule) (fun u => X u * X u) (fun u => Y u * Y u)); [exact (continuous_mult (K := R_AbsRing) X X t CX CX)|exact (continuous_mult (K := R_AbsRing) Y Y t CY CY)]. }
  assert (CA : forall D : R -> R, continuous D t -> D t <> 0 -> continuous (fun u => atan (Y u / D u)) t).
  { intros D CD ND. apply (continuous_comp (fun u => Y u / D u) atan).
    - unfold Rdiv. apply (continuous_mult (K := R_AbsRing) Y (fun u => / D u) t CY). apply (continuous_comp D Rinv); [auto|]. apply (ex_derive_continuous (V := R_NormedModule) Rinv). auto_derive. auto.
    - apply (ex_derive_continuous (V := R_NormedModule) atan). auto_derive. auto. }
  split; intros H.
  - apply continuity_pt_filterlim. unfold phi. apply (continuous_minus (V := R_NormedModule) (fun _ => PI) (fun u => 2 * atan (Y u / (sqrt (X u * X u + Y u * Y u) - X u)))); [apply continuous_const|].
    apply (continuous_mult (K := R_AbsRing) (fun _ => 2) (fun u => atan (Y u / (sqrt (X u * X u + Y u * Y u) - X u)))); [apply continuous_const|]. apply CA; [apply (continuous_minus (V := R_NormedModule) (fun u => sqrt (X u * X u + Y u * Y u)) X); auto|].
    pose proof (root_pos (X t) (Y t) H). lra.
  - apply continuity_pt_filterlim. unfold psi. apply (continuous_mult (K := R_AbsRing) (fun _ => 2) (fun u => atan (Y u / (sqrt (X u * X u + Y u * Y u) + X u)))); [apply continuous_const|]. apply CA; [apply (continuous_plus (V := R_NormedModule) (fun u => sqrt (X u * X u + Y u * Y u)) X); auto|].
    pose proof (root_pos (- X t) (Y t) ltac:(destruct H; [now left|right; lra])) as K. replace (- X t * - X t) with (X t * X t) in K by ring. lra.
Qed.

(** ** The turning of a part is the change of a continuous branch *)
Lemma part_lip P a b q : smoothP P -> a <= b -> offPart P a b q -> exists K, 0 < K /\ forall s t, a <= s <= b -> a <= t <= b -> Rabs (part P a t q - part P a s q) <= K * Rabs (t - s).
Proof.
  intros Hs Hab Ho. destruct (part_away P a b q Hs Hab Ho) as (d & Hd & Haway). destruct (proj2 Hs) as (S & HS & Hspeed).
  assert (HK : 0 < S / d) by (apply Rdiv_lt_0_compat; auto). exists (S / d). split; [auto|].
  assert (G : forall s t, a <= s -> s <= t -> t <= b -> Rabs (part P a t q - part P a s q) <= S / d * (t - s)).
  { intros s t H1 H2 H3. rewrite <- (part_split P a s t q Hs ltac:(lra)) by (intros u Hu; apply Ho; lra). replace (part P a s q + part P s t q - part P a s q) with (part P s t q) by ring.
    destruct (part_turn P s t q Hs H2 ltac:(intros u Hu; apply Ho; lra)) as [I1 _]. pose proof (RInt_correct (V := R_CompleteNormedModule) _ _ _ I1) as HI.
    pose proof (fun M H => norm_RInt_le_const _ s t _ M H2 H HI) as HN. specialize (HN (S / d)). unfold norm in HN. cbn in HN. unfold abs in HN. cbn in HN. rewrite (Rmult_comm (S / d)). apply HN.
    intros u Hu. pose proof (Ho u ltac:(lra)) as Nq. eapply Rle_trans; [exact (speed_bound q _ u Nq)|]. specialize (Haway u ltac:(lra)). specialize (Hspeed u).
    apply Rle_trans with (S / dist q (P u)); [apply Rmult_le_compat_r; [apply Rlt_le, Rinv_0_lt_compat; lra|auto]|]. apply Rmult_le_compat_l; [lra|]. apply Rinv_le_contravar; auto. }
  intros s t Hs1 Ht1. destruct (Rle_dec s t) as [L|L].
  - rewrite (Rabs_right (t - s)) by lra. apply G; lra.
  - rewrite (Rabs_left (t - s)) by lra. rewrite Rabs_minus_sym. replace (- (t - s)) with (s - t) by ring. apply G; lra.
Qed.

Lemma part_branch P a b q (f : R -> R) : smoothP P -> a <= b -> offPart P a b q -> (forall t, a <= t <= b -> continuity_pt f t) -> (forall t, a <= t <= b -> congruent (angU q (P t)) (f t)) ->
  part P a b q = f b - f a.
Proof.
  intros Hs Hab Ho Cf Ef. set (cl := fun t => Rmax a (Rmin b t)).
  assert (clL : forall t x, Rabs (cl x - cl t) <= Rabs (x - t)). { intros t x. unfold cl, Rmax, Rmin, Rabs. repeat destruct (Rle_dec _ _); repeat destruct (Rcase_abs _); lra. }
  assert (clI : forall t, a <= cl t <= b). { intros t. unfold cl, Rmax, Rmin. repeat destruct (Rle_dec _ _); lra. }
  assert (clE : forall t, a <= t <= b -> cl t = t). { intros t Ht. unfold cl, Rmax, Rmin. repeat destruct (Rle_dec _ _); lra. }
  assert (clC : forall t, continuity_pt cl t). { intros t e He. exists e. split; [auto|]. intros x [_ Hx]. cbn in *. unfold R_dist in *. eapply Rle_lt_trans; [apply clL|exact Hx]. }
  destruct (part_lip P a b q Hs Hab Ho) as (K & HK & Lip).
  pose proof (lattice_const (fun t => part P a (cl t) q - (f (cl t) - f a)) a b) as L. cbn beta in L. rewrite !clE in L by lra.
  assert (E0 : part P a a q = 0). { unfold part. rewrite (RInt_point (V := R_CompleteNormedModule)). reflexivity. }
  rewrite E0 in L. enough (0 - (f a - f a) = part P a b q - (f b - f a)) by lra. apply L.
  - intros t. apply (continuity_pt_minus (fun t => part P a (cl t) q) (fun t => f (cl t) - f a)).
    + intros e He. exists (e / K). split; [apply Rdiv_lt_0_compat; auto|]. intros x [_ Hx]. cbn in *. unfold R_dist in *. eapply Rle_lt_trans; [apply Lip; apply clI|].
      eapply Rle_lt_trans; [apply Rmult_le_compat_l; [lra|apply clL]|]. apply Rmult_lt_compat_l with (r := K) in Hx; [|auto]. replace (K * (e / K)) with e in Hx by (field; lra). exact Hx.
    + apply (continuity_pt_minus (fun t => f (cl t)) (fun _ => f a)); [apply (continuity_pt_comp cl f); [apply clC|apply Cf, clI]|apply continuity_pt_const; intros ? ?; reflexivity].
  - intros t. destruct (part_turn P a (cl t) q Hs ltac:(apply clI) ltac:(intros u Hu; apply Ho; specialize (clI t); lra)) as [_ (k1 & E1)]. destruct (Ef (cl t) (clI t)) as (k2 & E2). destruct (Ef a ltac:(lra)) as (k3 & E3).
    exists (k1 - k2 + k3)%Z. rewrite E1, E2, E3, plus_IZR, minus_IZR. ring.
Qed.

Lemma part_right_free P a b q : smoothP P -> a <= b -> (forall t, a <= t <= b -> vy (P t) <> vy q \/ vx (P t) < vx q) -> part P a b q = angU q (P b) - angU q (P a).
Proof.
  intros Hs Hab H. rewrite !phi_angU by (apply H; lra).
  apply (part_branch P a b q (fun t => phi (vx (P t) - vx q) (vy (P t) - vy q)) Hs Hab).
  - intros t Ht E. destruct (H t Ht) as [K|K]; rewrite E in K; lra.
  - intros t Ht. destruct (smooth_cont P t Hs) as [CX CY]. apply (branch_cont (fun t => vx (P t) - vx q) (fun t => vy (P t) - vy q) t).
    + apply (continuous_minus (V := R_NormedModule) (fun t => vx (P t)) (fun _ => vx q)); [auto|apply continuous_const].
    + apply (continuous_minus (V := R_NormedModule) (fun t => vy (P t)) (fun _ => vy q)); [auto|apply continuous_const].
    + destruct (H t Ht); [left; lra|right; lra].
  - intros t Ht. rewrite phi_angU by (now apply H). apply congruent_refl.
Qed.

Lemma part_left_free P a b q : smoothP P -> a <= b -> (forall t, a <= t <= b -> vy (P t) <> vy q \/ vx q < vx (P t)) -> part P a b q = psi (vx (P b) - vx q) (vy (P b) - vy q) - psi (vx (P a) - vx q) (vy (P a) - vy q).
Proof.
  intros Hs Hab H.
  apply (part_branch P a b q (fun t => psi (vx (P t) - vx q) (vy (P t) - vy q)) Hs Hab).
  - intros t Ht E. destruct (H t Ht) as [K|K]; rewrite E in K; lra.
  - intros t Ht. destruct (smooth_cont P t Hs) as [CX CY]. apply (branch_cont (fun t => vx (P t) - vx q) (fun t => vy (P t) - vy q) t).
    + apply (continuous_minus (V := R_NormedModule) (fun t => vx (P t)) (fun _ => vx q)); [auto|apply continuous_const].
    + apply (continuous_minus (V := R_NormedModule) (fun t => vy (P t)) (fun _ => vy q)); [auto|apply continuous_const].
    + destruct (H t Ht); [left; lra|right; lra].
  - intros t Ht. apply psi_angU. now apply H.
Qed.

(** ** Parts that are graphs over the y axis *)
(** the heights of the part lie between the heights of its ends, and unless it is level its points are given by their heights *)
Definition graphPart (P : R -> vec) (a b : R) (xi : R -> R) : Prop :=
  (forall t, a <= t <= b -> Rmin (vy (P a)) (vy (P b)) <= vy (P t) <= Rmax (vy (P a)) (vy (P b))) /\
  (vy (P a) <> vy (P b) -> forall t, a <= t <= b -> vx (P t) = xi (vy (P t))).

(** what a part contributes to the winding number at height y: the direction in which it passes that height *)
Definition sense (ya yb y : R) : R := if Rlt_dec ya y then if Rlt_dec y yb then 1 else 0 else if Rlt_dec yb y then if Rlt_dec y ya then -1 else 0 else 0.
Definition stepOf (ya yb : R) (xi : R -> R) (x y : R) : R := sense ya yb y * (if Rlt_dec x (xi y) then 1 else 0).
Definition widthOf (M ya yb : R) (xi : R -> R) (y : R) : R := sense ya yb y * (xi y + M).

Lemma sense_cases ya yb y : (ya < y < yb /\ sense ya yb y = 1) \/ (yb < y < ya /\ sense ya yb y = -1) \/ (~ ya < y < yb /\ ~ yb < y < ya /\ sense ya yb y = 0).
Proof. unfold sense. repeat destruct (Rlt_dec _ _); [left|right; right|right; left|right; right|right; right]; repeat split; try lra. Qed.

Section Graph.
Variables (P : R -> vec) (a b : R) (xi : R -> R).
Hypothesis Sm : smoothP P.
Hypothesis Hab : a <= b.
Hypothesis GP : graphPart P a b xi.
Hypothesis Cxi : forall y, continuous xi y.
Let ya := vy (P a).
Let yb := vy (P b).

Lemma graph_hit y : ya < y < yb \/ yb < y < ya -> exists t, a <= t <= b /\ vy (P t) = y /\ vx (P t) = xi y.
Proof.
  intros H. destruct (IVT_gen (fun u => vy (P u)) a b y) as (t & Ht & Et).
  { intros t. apply continuity_pt_filterlim. apply smooth_cont, Sm. }
  { fold ya yb. unfold Rmin, Rmax. repeat destruct (Rle_dec _ _); lra. }
  rewrite Rmin_left, Rmax_right in Ht by lra. exists t. split; [lra|]. split; [auto|]. rewrite <- Et. apply GP; [fold ya yb; lra|auto].
Qed.

Lemma graph_turn x y : y <> ya -> y <> yb -> offPart P a b (mkV x y) -> part P a b (mkV x y) - (angU (mkV x y) (P b) - angU (mkV x y) (P a)) = 2 * PI * stepOf ya yb xi x y.
Proof.
  intros Na Nb Ho. set (q := mkV x y) in *. unfold stepOf. destruct GP as [G1 G2]. fold ya yb in G1, G2.
  destruct (sense_cases ya yb y) as [[H E]|[[H E]|(H & H' & E)]]; rewrite E.
  - destruct (graph_hit y (or_introl H)) as (t0 & T0 & Y0 & X0). assert (Nx : x <> xi y). { intros Ex. apply (Ho t0 T0). apply vec_eq; unfold q; cbn [vx vy]; congruence. }
    destruct (Rlt_dec x (xi y)) as [L|L].
    + rewrite part_left_free; [rewrite (psi_high q (P b) (proj2 H)), (psi_low q (P a) (proj1 H)); ring|auto|auto|]. intros t Ht. unfold q. cbn [vx vy]. destruct (Req_dec (vy (P t)) y) as [Q|Q]; [right|now left]. rewrite (G2 ltac:(lra) t Ht), Q. lra.
    + rewrite part_right_free; [ring|auto|auto|]. intros t Ht. unfold q. cbn [vx vy]. destruct (Req_dec (vy (P t)) y) as [Q|Q]; [right|now left]. rewrite (G2 ltac:(lra) t Ht), Q. lra.
  - destruct (graph_hit y (or_intror H)) as (t0 & T0 & Y0 & X0). assert (Nx : x <> xi y). { intros Ex. apply (Ho t0 T0). apply vec_eq; unfold q; cbn [vx vy]; congruence. }
    destruct (Rlt_dec x (xi y)) as [L|L].
    + rewrite part_left_free; [rewrite (psi_low q (P b) (proj1 H)), (psi_high q (P a) (proj2 H)); ring|auto|auto|]. intros t Ht. unfold q. cbn [vx vy]. destruct (Req_dec (vy (P t)) y) as [Q|Q]; [right|now left]. rewrite (G2 ltac:(lra) t Ht), Q. lra.
    + rewrite part_right_free; [ring|auto|auto|]. intros t Ht. unfold q. cbn [vx vy]. destruct (Req_dec (vy (P t)) y) as [Q|Q]; [right|now left]. rewrite (G2 ltac:(lra) t Ht), Q. lra.
  - rewrite part_right_free; [ring|auto|auto|]. intros t Ht. left. unfold q. cbn [vy]. specialize (G1 t Ht). intros Q. rewrite Q in G1. unfold Rmin, Rmax in G1. repeat destruct (Rle_dec _ _); lra.
Qed.

Variable M : R.
Hypothesis HM : forall t, a <= t <= b -> Rabs (vx (P t)) <= M /\ Rabs (vy (P t)) <= M.

Lemma graph_width y : is_RInt (fun x => stepOf ya yb xi x y) (- M) M (widthOf M ya yb xi y).
Proof.
  unfold stepOf, widthOf. assert (M0 : 0 <= M). { destruct (HM a ltac:(lra)) as [K _]. pose proof (Rabs_pos (vx (P a))). lra. }
  destruct (Req_dec (sense ya yb y) 0) as [E|N].
  - rewrite E, Rmult_0_l. apply (is_RInt_ext (V := R_NormedModule) (fun _ => 0)); [intros; now rewrite Rmult_0_l|apply is_RInt_zero].
  - assert (H : ya < y < yb \/ yb < y < ya) by (destruct (sense_cases ya yb y) as [[? _]|[[? _]|(_ & _ & ?)]]; auto; contradiction).
    destruct (graph_hit y H) as (t & Ht & Ey & Ex). destruct (HM t Ht) as [K _]. rewrite Ex in K. apply Rabs_def2_le in K. 
    apply (is_RInt_window (fun _ => sense ya yb y) _ (- M) M (- M) (xi y)); try lra.
    + replace (sense ya yb y * (xi y + M)) with ((xi y - - M) * sense ya yb y) by ring. apply is_RInt_c.
    + intros x _ Hx. destruct (Rlt_dec x (xi y)); [ring|lra].
    + intros x Hx0 [Hx|Hx]; destruct (Rlt_dec x (xi y)); try lra; ring.
Qed.

Lemma graph_area : is_RInt (widthOf M ya yb xi) (- M) M (RInt (fun t => vx (P t) * Derive (fun u => vy (P u)) t) a b + M * (yb - ya)).
Proof.
  destruct Sm as ((dX & dY & HX & HY & CX & CY) & _).
  assert (ED : forall t, Derive (fun u => vy (P u)) t = dY t) by (intros t; apply is_derive_unique; apply HY).
  destruct (HM a ltac:(lra)) as [_ Ka]. destruct (HM b ltac:(lra)) as [_ Kb]. apply Rabs_def2_le in Ka. apply Rabs_def2_le in Kb. fold ya in Ka. fold yb in Kb.
  destruct (Req_dec ya yb) as [E|N].
  - assert (Ec : RInt (fun t => vx (P t) * Derive (fun u => vy (P u)) t) a b = 0).
    { destruct (Req_dec a b) as [<-|Nab]; [rewrite (RInt_point (V := R_CompleteNormedModule)); reflexivity|].
      assert (Cst : forall t, a <= t <= b -> vy (P t) = ya). { intros t Ht. destruct GP as [G1 _]. specialize (G1 t Ht). fold ya yb in G1. rewrite E, Rmin_left, Rmax_right in G1 by lra. lra. }
      transitivity (RInt (fun _ => 0) a b); [|apply (is_RInt_unique (V := R_CompleteNormedModule)), is_RInt_zero]. apply (RInt_ext (V := R_CompleteNormedModule)). intros t Ht. rewrite Rmin_left, Rmax_right in Ht by lra.
      assert (D0 : Derive (fun u => vy (P u)) t = 0).
      { rewrite (Derive_ext_loc (fun u => vy (P u)) (fun _ => ya)); [apply Derive_const|]. exists (mkposreal (Rmin (t - a) (b - t)) ltac:(apply Rmin_glb_lt; lra)). intros u Hu. unfold ball in Hu. cbn in Hu. unfold AbsRing_ball, abs, minus, plus, opp in Hu. cbn in Hu.
        apply Cst. pose proof (Rmin_l (t - a) (b - t)). pose proof (Rmin_r (t - a) (b - t)). unfold Rabs in Hu. destruct (Rcase_abs _) in Hu; lra. }
      rewrite D0. exact (Rmult_0_r _). }
    rewrite Ec. replace (0 + M * (yb - ya)) with 0 by (rewrite E; ring). apply (is_RInt_ext (V := R_NormedModule) (fun _ => 0)); [|apply is_RInt_zero]. intros y _. unfold widthOf. destruct (sense_cases ya yb y) as [[? _]|[[? _]|(_ & _ & ->)]]; lra.
  - (* change of variables *)
    assert (CV : is_RInt xi ya yb (RInt (fun t => vx (P t) * Derive (fun u => vy (P u)) t) a b)).
    { assert (Ex : ex_RInt xi ya yb) by (apply (ex_RInt_continuous (V := R_CompleteNormedModule)); intros; apply Cxi).
      pose proof (RInt_correct (V := R_CompleteNormedModule) _ _ _ Ex) as I. enough (E : RInt (fun t => vx (P t) * Derive (fun u => vy (P u)) t) a b = RInt xi ya yb) by (rewrite E; exact I).
      pose proof (RInt_comp (V := R_CompleteNormedModule) xi (fun u => vy (P u)) dY a b) as RC. cbn beta in RC. fold ya yb in RC. rewrite <- RC; [|intros; apply Cxi|intros; split; [apply HY|apply CY]].
      apply (RInt_ext (V := R_CompleteNormedModule)). intros t Ht. rewrite Rmin_left, Rmax_right in Ht by lra. rewrite ED. destruct GP as [_ G2]. rewrite (G2 N t ltac:(lra)). unfold scal. cbn. unfold mult. cbn. ring. }
    set (J := RInt (fun t => vx (P t) * Derive (fun u => vy (P u)) t) a b) in *.
    assert (CM : is_RInt (fun y => xi y + M) ya yb (J + M * (yb - ya))).
    { pose proof (is_RInt_plus (V := R_NormedModule) _ _ _ _ _ _ CV (is_RInt_c ya yb M)) as K. unfold plus in K. cbn in K. replace (J + M * (yb - ya)) with (J + (yb - ya) * M) by ring. exact K. }
    destruct (Rlt_dec ya yb) as [L|L].
    + apply (is_RInt_window (fun y => xi y + M) _ (- M) M ya yb); try lra; auto.
      * intros y _ Hy. unfold widthOf. destruct (sense_cases ya yb y) as [[? ->]|[[? _]|(? & ? & _)]]; lra.
      * intros y _ Hy. unfold widthOf. destruct (sense_cases ya yb y) as [[? _]|[[? _]|(_ & _ & ->)]]; lra.
    + pose proof (is_RInt_swap (V := R_NormedModule) _ _ _ _ CM) as CS. pose proof (is_RInt_opp (V := R_NormedModule) _ _ _ _ CS) as CO.
      match type of CO with is_RInt _ _ _ ?z => assert (EO : z = J + M * (yb - ya)) by (unfold opp; cbn; ring) end. rewrite EO in CO.
      apply (is_RInt_window (fun y => opp (xi y + M)) _ (- M) M yb ya); try lra; auto.
      * intros y _ Hy. unfold widthOf, opp. cbn. destruct (sense_cases ya yb y) as [[? _]|[[? ->]|(? & ? & _)]]; lra.
      * intros y _ Hy. unfold widthOf. destruct (sense_cases ya yb y) as [[? _]|[[? _]|(_ & _ & ->)]]; lra.
Qed.
End Graph.

(** ** Every segment consists of at most two such parts *)
Lemma cos_sign (k : Z) : exists s, (s = 1 \/ s = -1) /\ forall x, IZR k * PI - PI / 2 <= x <= IZR k * PI + PI / 2 -> 0 <= s * cos x.
Proof.
  pose proof PI_RGT_0 as HP. destruct (Z.Even_or_Odd k) as [(m & ->)|(m & ->)].
  - exists 1. split; [auto|]. intros x Hx. rewrite mult_IZR in Hx. rewrite (congruent_cos x (x - IZR m * (2 * PI))) by (exists (- m)%Z; rewrite opp_IZR; ring). rewrite Rmult_1_l. apply cos_ge_0; lra.
  - exists (-1). split; [auto|]. intros x Hx. rewrite plus_IZR, mult_IZR in Hx. rewrite (congruent_cos x (x - IZR m * (2 * PI))) by (exists (- m)%Z; rewrite opp_IZR; ring).
    replace (x - IZR m * (2 * PI)) with (x - IZR m * (2 * PI) - PI + PI) by ring. rewrite neg_cos. assert (0 <= cos (x - IZR m * (2 * PI) - PI)) by (apply cos_ge_0; lra). lra.
Qed.

(** an angle that moves by at most half a turn changes the sign of its cosine at most once *)
Lemma cos_split al th : Rabs th <= PI -> exists t0 s1 s2, 0 <= t0 <= 1 /\ (s1 = 1 \/ s1 = -1) /\ (s2 = 1 \/ s2 = -1) /\
  (forall t, 0 <= t <= t0 -> 0 <= s1 * cos (al + t * th)) /\ (forall t, t0 <= t <= 1 -> 0 <= s2 * cos (al + t * th)).
Proof.
  intros Hth. pose proof PI_RGT_0 as HP. apply Rabs_def2_le in Hth. set (y := al / PI + 1 / 2). destruct (archimed y) as [U1 U2]. set (k := (up y - 1)%Z).
  assert (Ek : IZR k <= y < IZR k + 1) by (unfold k; rewrite minus_IZR; lra). assert (Ey : al = (y - 1 / 2) * PI) by (unfold y; field; lra).
  assert (Hal : IZR k * PI - PI / 2 <= al < IZR k * PI + PI / 2) by (rewrite Ey; nra).
  destruct (cos_sign k) as (s1 & Hs1 & K1).
  destruct (Rle_dec 0 th) as [Lt|Lt].
  - destruct (Rle_dec (al + th) (IZR k * PI + PI / 2)) as [L|L].
    + exists 1, s1, s1. split; [lra|]. split; [auto|]. split; [auto|]. split; intros t Ht; apply K1; nra.
    + apply Rnot_le_lt in L. destruct (cos_sign (k + 1)) as (s2 & Hs2 & K2). rewrite plus_IZR in K2. set (t0 := (IZR k * PI + PI / 2 - al) / th). assert (th0 : 0 < th) by lra.
      assert (E0 : t0 * th = IZR k * PI + PI / 2 - al) by (unfold t0; field; lra). assert (0 <= t0) by (apply Rmult_le_reg_r with th; lra). assert (t0 <= 1) by (apply Rmult_le_reg_r with th; lra).
      exists t0, s1, s2. split; [lra|]. split; [auto|]. split; [auto|]. split; intros t Ht.
      * apply K1. assert (t * th <= t0 * th) by (apply Rmult_le_compat_r; lra). assert (0 <= t * th) by (apply Rmult_le_pos; lra). lra.
      * apply K2. assert (t0 * th <= t * th) by (apply Rmult_le_compat_r; lra). assert (t * th <= 1 * th) by (apply Rmult_le_compat_r; lra). lra.
  - apply Rnot_le_lt in Lt. destruct (Rle_dec (IZR k * PI - PI / 2) (al + th)) as [L|L].
    + exists 1, s1, s1. split; [lra|]. split; [auto|]. split; [auto|]. split; intros t Ht; apply K1; nra.
    + apply Rnot_le_lt in L. destruct (cos_sign (k - 1)) as (s2 & Hs2 & K2). rewrite minus_IZR in K2. set (t0 := (al - (IZR k * PI - PI / 2)) / (- th)).
      assert (E0 : t0 * (- th) = al - (IZR k * PI - PI / 2)) by (unfold t0; field; lra). assert (0 <= t0) by (apply Rmult_le_reg_r with (- th); lra). assert (t0 <= 1) by (apply Rmult_le_reg_r with (- th); lra).
      exists t0, s1, s2. split; [lra|]. split; [auto|]. split; [auto|]. split; intros t Ht.
      * apply K1. assert (t * (- th) <= t0 * (- th)) by (apply Rmult_le_compat_r; lra). assert (0 <= t * (- th)) by (apply Rmult_le_pos; lra). lra.
      * apply K2. assert (t0 * (- th) <= t * (- th)) by (apply Rmult_le_compat_r; lra). assert (t * (- th) <= 1 * (- th)) by (apply Rmult_le_compat_r; lra). lra.
Qed.

(** a function whose derivative does not change sign stays between its end values *)
Lemma between_ends (f df : R -> R) a b s : (s = 1 \/ s = -1) -> a <= b -> (forall t, is_derive f t (df t)) -> (forall t, a <= t <= b -> 0 <= s * df t) ->
  forall t, a <= t <= b -> Rmin (f a) (f b) <= f t <= Rmax (f a) (f b).
Proof.
  intros Hs Hab D H.
  assert (G : forall u v, a <= u -> u <= v -> v <= b -> 0 <= s * (f v - f u)).
  { intros u v H1 H2 H3. destruct (MVT_gen f u v df) as (c & Hc & E).
    - intros; apply D. - intros x _. apply continuity_pt_filterlim. apply (ex_derive_continuous f). eexists. apply D.
    - rewrite Rmin_left, Rmax_right in Hc by lra. rewrite E. specialize (H c ltac:(lra)). replace (s * (df c * (v - u))) with (s * df c * (v - u)) by ring. apply Rmult_le_pos; lra. }
  intros t Ht. pose proof (G a t ltac:(lra) ltac:(lra) ltac:(lra)). pose proof (G t b ltac:(lra) ltac:(lra) ltac:(lra)). unfold Rmin, Rmax. repeat destruct (Rle_dec _ _); destruct Hs as [-> | ->]; lra.
Qed.

Definition circleX (c : vec) (r2 s y : R) : R := vx c + s * sqrt (r2 - (y - vy c) * (y - vy c)).

Lemma circleX_cont c r2 s y : continuous (circleX c r2 s) y.
Proof.
  unfold circleX. apply (continuous_plus (V := R_NormedModule) (fun _ => vx c) (fun y => s * sqrt (r2 - (y - vy c) * (y - vy c)))); [apply continuous_const|].
  apply (continuous_mult (K := R_AbsRing) (fun _ => s) (fun y => sqrt (r2 - (y - vy c) * (y - vy c)))); [apply continuous_const|].
  apply (continuous_comp (fun y => r2 - (y - vy c) * (y - vy c)) sqrt); [|apply continuous_sqrt]. apply (ex_derive_continuous (V := R_NormedModule) (fun y => r2 - (y - vy c) * (y - vy c))). auto_derive. auto.
Qed.

Lemma arc_graph c p th a b s : (s = 1 \/ s = -1) -> a <= b -> (forall t, a <= t <= b -> 0 <= s * (vx (rot c (t * th) p) - vx c)) ->
  graphPart (fun t => rot c (t * th) p) a b (circleX c (sq2 p c) s).
Proof.
  intros Hs Hab H. split.
  - destruct (Rle_dec 0 th) as [L|L].
    + apply (between_ends (fun t => vy (rot c (t * th) p)) (fun t => th * (vx (rot c (t * th) p) - vx c)) a b s Hs Hab); [intros; apply arc_dY|]. intros t Ht. specialize (H t Ht). replace (s * (th * (vx (rot c (t * th) p) - vx c))) with (th * (s * (vx (rot c (t * th) p) - vx c))) by ring. apply Rmult_le_pos; auto.
    + apply (between_ends (fun t => vy (rot c (t * th) p)) (fun t => th * (vx (rot c (t * th) p) - vx c)) a b (- s)); [destruct Hs as [-> | ->]; [right|left]; ring|auto|intros; apply arc_dY|]. intros t Ht. specialize (H t Ht). replace (- s * (th * (vx (rot c (t * th) p) - vx c))) with ((- th) * (s * (vx (rot c (t * th) p) - vx c))) by ring. apply Rmult_le_pos; [lra|auto].
  - intros _ t Ht. specialize (H t Ht). unfold circleX. pose proof (sq2_rot c (t * th) p) as E. set (q := rot c (t * th) p) in *. unfold sq2 in E at 1. rewrite <- E.
    replace ((vx q - vx c) * (vx q - vx c) + (vy q - vy c) * (vy q - vy c) - (vy q - vy c) * (vy q - vy c)) with (Rsqr (vx q - vx c)) by (unfold Rsqr; ring). rewrite sqrt_Rsqr_abs.
    destruct Hs as [-> | ->]; [rewrite Rabs_right by lra|rewrite Rabs_left1 by lra]; rring.
Qed.

Lemma line_graph p q : exists xi, (forall y, continuous xi y) /\ graphPart (fun t => lerp p q t) 0 1 xi.
Proof.
  exists (fun y => vx p + (y - vy p) / (vy q - vy p) * (vx q - vx p)). split.
  - intros y. apply (ex_derive_continuous (V := R_NormedModule) (fun y => vx p + (y - vy p) / (vy q - vy p) * (vx q - vx p))). unfold Rdiv. auto_derive. auto.
  - split.
    + intros t Ht. unfold lerp. cbn [vy]. unfold Rmin, Rmax. repeat destruct (Rle_dec _ _); nra.
    + intros N t Ht. unfold lerp in *. cbn [vx vy] in *. rfield. lra.
Qed.

Lemma point_graph P t xi : graphPart P t t xi.
Proof.
  split; [|intros N; now destruct N]. intros u Hu. assert (u = t) as -> by lra. rewrite Rmin_left, Rmax_right by lra. lra.
Qed.

Lemma graph_ext P Q a b xi : (forall t, P t = Q t) -> a <= b -> graphPart P a b xi -> graphPart Q a b xi.
Proof.
  intros E Hab [G1 G2]. split; [intros t Ht; rewrite <- !E; now apply G1|intros N t Ht; rewrite <- !E in *; now apply G2].
Qed.

Lemma seg_graph v1 v2 : Rabs (bulge v1) <= 1 -> exists t0 xi1 xi2, 0 <= t0 <= 1 /\ (forall y, continuous xi1 y) /\ (forall y, continuous xi2 y) /\
  graphPart (segPath v1 v2) 0 t0 xi1 /\ graphPart (segPath v1 v2) t0 1 xi2.
Proof.
  intros Hb. destruct (Rlt_dec (Rabs (bulge v1)) (1 / 100000)) as [Hl|Hl].
  - destruct (line_graph (pos v1) (pos v2)) as (xi & C & G). exists 1, xi, xi. split; [lra|]. split; [auto|]. split; [auto|]. split; [|apply point_graph].
    apply (graph_ext (fun t => lerp (pos v1) (pos v2) t)); [intros t; symmetry; now apply segPath_line|lra|exact G].
  - set (c := ctrOf v1 v2). set (th := sweep (bulge v1)). assert (Eq : forall t, rot c (t * th) (pos v1) = segPath v1 v2 t) by (intros t; symmetry; now apply segPath_arc).
    assert (Hth : Rabs th <= PI) by exact (Rabs_le _ _ (sweep_le_pi _ Hb)).
    destruct (vec_dec (pos v1) c) as [Ec|Nc].
    + exists 1, (circleX c (sq2 (pos v1) c) 1), (circleX c (sq2 (pos v1) c) 1). split; [lra|]. split; [apply circleX_cont|]. split; [apply circleX_cont|]. split; [|apply point_graph].
      apply (graph_ext _ _ _ _ _ Eq); [lra|]. apply arc_graph; [auto|lra|]. intros t _. unfold rot. cbn [vx]. rewrite Ec. right. rring.
    + destruct (angU_polar c (pos v1) Nc) as (E1 & E2 & E3). set (al := angU c (pos v1)) in *. set (r := dist c (pos v1)) in *.
      destruct (cos_split al th Hth) as (t0 & s1 & s2 & H0 & S1 & S2 & K1 & K2).
      assert (EX : forall s t, s * (vx (rot c (t * th) (pos v1)) - vx c) = r * (s * cos (al + t * th))). { intros s t. unfold rot. cbn [vx]. rewrite E1, E2, cos_plus. rring. }
      exists t0, (circleX c (sq2 (pos v1) c) s1), (circleX c (sq2 (pos v1) c) s2). split; [lra|]. split; [apply circleX_cont|]. split; [apply circleX_cont|].
      split; apply (graph_ext _ _ _ _ _ Eq); try lra; apply arc_graph; auto; try lra; intros t Ht; rewrite EX; apply Rmult_le_pos; try lra; auto.
Qed.

(** ** Adding up contributions *)
(** [onS] is a set of points with turning [tau] (a multiple of the full turn) whose integral over the square of half width M is J:
    for all heights y but finitely many, tau is a step function on the line at height y, undetermined at finitely many points,
    and the integrals along these lines integrate to J *)
Definition layer (M : R) (onS : vec -> Prop) (tau : vec -> R) (J : R) : Prop :=
  exists (E : list R) (st : R -> R -> R) (wd : R -> R),
    (forall x y, ~ In y E -> ~ onS (mkV x y) -> tau (mkV x y) = 2 * PI * st x y) /\
    (forall y, ~ In y E -> is_RInt (fun x => st x y) (- M) M (wd y)) /\ is_RInt wd (- M) M J /\
    (forall y, ~ In y E -> exists F : list R, forall x, onS (mkV x y) -> In x F).

Lemma layer_zero M : layer M (fun _ => False) (fun _ => 0) 0.
Proof.
  exists [], (fun _ _ => 0), (fun _ => 0). split; [intros; ring|]. split; [intros; apply is_RInt_zero|]. split; [apply is_RInt_zero|]. intros y _. exists []. intros x [].
Qed.

Lemma layer_add M S1 S2 T1 T2 J1 J2 : layer M S1 T1 J1 -> layer M S2 T2 J2 -> layer M (fun q => S1 q \/ S2 q) (fun q => T1 q + T2 q) (J1 + J2).
Proof.
  intros (E1 & st1 & wd1 & A1 & B1 & C1 & D1) (E2 & st2 & wd2 & A2 & B2 & C2 & D2).
  exists (E1 ++ E2), (fun x y => st1 x y + st2 x y), (fun y => wd1 y + wd2 y). split; [|split; [|split]].
  - intros x y N O. rewrite A1, A2; [ring|..]; intros H; first [solve [apply O; auto]|apply N, in_app_iff; auto].
  - intros y N. apply (is_RInt_plus (V := R_NormedModule)); [apply B1|apply B2]; intros H; apply N, in_app_iff; auto.
  - now apply (is_RInt_plus (V := R_NormedModule)).
  - intros y N. destruct (D1 y) as (F1 & H1); [intros H; apply N, in_app_iff; auto|]. destruct (D2 y) as (F2 & H2); [intros H; apply N, in_app_iff; auto|].
    exists (F1 ++ F2). intros x [H|H]; apply in_app_iff; auto.
Qed.

Lemma layer_ext M S T T' S' J J' : (forall q, S q <-> S' q) -> (forall q, ~ S' q -> T q = T' q) -> J = J' -> layer M S T J -> layer M S' T' J'.
Proof.
  intros HS HT <- (E & st & wd & A & B & C & D). exists E, st, wd. split; [intros x y N O; rewrite <- HT by auto; apply A; [auto|now rewrite HS]|]. split; [auto|]. split; [auto|].
  intros y N. destruct (D y N) as (F & H). exists F. intros x O. apply H. now apply HS.
Qed.

Definition loopInt (P : R -> vec) (a b : R) : R := RInt (fun t => vx (P t) * Derive (fun u => vy (P u)) t) a b.

Lemma graph_layer P a b xi M : smoothP P -> a <= b -> graphPart P a b xi -> (forall y, continuous xi y) -> (forall t, a <= t <= b -> Rabs (vx (P t)) <= M /\ Rabs (vy (P t)) <= M) ->
  layer M (fun q => ~ offPart P a b q) (fun q => part P a b q - (angU q (P b) - angU q (P a))) (loopInt P a b + M * (vy (P b) - vy (P a))).
Proof.
  intros Sm Hab G C HM. exists [vy (P a); vy (P b)], (stepOf (vy (P a)) (vy (P b)) xi), (widthOf M (vy (P a)) (vy (P b)) xi). split; [|split; [|split]].
  - intros x y N O. apply graph_turn; auto; try (intros E; apply N; rewrite E; cbn; auto). now apply NNPP.
  - intros y _. apply (graph_width P a b xi Sm Hab G M HM).
  - apply (graph_area P a b xi Sm Hab G C M HM).
  - intros y N. exists [xi y]. intros x O. apply offPart_not in O. destruct O as (t & Ht & E). assert (Ex : x = vx (P t)) by (now rewrite <- E). assert (Ey : y = vy (P t)) by (now rewrite <- E). left.
    destruct G as [G1 G2]. rewrite Ex, Ey. symmetry. apply G2; [|auto]. intros Q. apply N. left. specialize (G1 t Ht). rewrite <- Q, Rmin_left, Rmax_right in G1 by lra. rewrite Ey. lra.
Qed.

Lemma green_cont P : smoothP P -> forall t, continuous (fun t => vx (P t) * Derive (fun u => vy (P u)) t) t.
Proof.
  intros ((dX & dY & HX & HY & CX & CY) & _) t. apply (continuous_ext (fun t => vx (P t) * dY t)).
  - intros u. f_equal. symmetry. apply is_derive_unique. apply HY.
  - apply (continuous_mult (K := R_AbsRing) (fun t => vx (P t)) dY); [apply (ex_derive_continuous (fun u => vx (P u))); eexists; apply HX|apply CY].
Qed.

Lemma seg_layer v1 v2 M : Rabs (bulge v1) <= 1 -> (forall q, onSeg v1 v2 q -> Rabs (vx q) <= M /\ Rabs (vy q) <= M) ->
  layer M (onSeg v1 v2) (fun q => RInt (angSpeed q (segPath v1 v2)) 0 1 - (angU q (pos v2) - angU q (pos v1))) (loopInt (segPath v1 v2) 0 1 + M * (vy (pos v2) - vy (pos v1))).
Proof.
  intros Hb HM. destruct (seg_graph v1 v2 Hb) as (t0 & x1 & x2 & H0 & C1 & C2 & G1 & G2). pose proof (seg_smoothP v1 v2) as Sm.
  assert (HM' : forall t, 0 <= t <= 1 -> Rabs (vx (segPath v1 v2 t)) <= M /\ Rabs (vy (segPath v1 v2 t)) <= M) by (intros t Ht; apply HM, onSeg_path; exists t; auto).
  pose proof (graph_layer _ 0 t0 x1 M Sm ltac:(lra) G1 C1 ltac:(intros; apply HM'; lra)) as L1. pose proof (graph_layer _ t0 1 x2 M Sm ltac:(lra) G2 C2 ltac:(intros; apply HM'; lra)) as L2.
  apply (layer_ext _ _ _ _ _ _ _) with (4 := layer_add _ _ _ _ _ _ _ L1 L2).
  - intros q. rewrite !offPart_not, onSeg_path. split; [intros [(t & Ht & E)|(t & Ht & E)]; exists t; split; auto; lra|]. intros (t & Ht & E). destruct (Rle_dec t t0); [left|right]; exists t; split; auto; lra.
  - intros q O. assert (Ho : offPart (segPath v1 v2) 0 1 q) by (intros t Ht E; apply O, onSeg_path; exists t; auto).
    pose proof (part_split (segPath v1 v2) 0 t0 1 q Sm H0 Ho) as E. change (RInt (angSpeed q (segPath v1 v2)) 0 1) with (part (segPath v1 v2) 0 1 q). rewrite <- E. rewrite segPath_0, segPath_1. ring.
  - assert (E : loopInt (segPath v1 v2) 0 t0 + loopInt (segPath v1 v2) t0 1 = loopInt (segPath v1 v2) 0 1).
    { unfold loopInt. pose proof (green_cont _ Sm) as Gc. apply (RInt_Chasles (V := R_CompleteNormedModule)); apply (ex_RInt_continuous (V := R_CompleteNormedModule)); intros; apply Gc. }
    rewrite <- E, segPath_0, segPath_1. ring.
Qed.

Lemma list_layer M l : (forall v1 v2, In (v1, v2) l -> Rabs (bulge v1) <= 1 /\ forall q, onSeg v1 v2 q -> Rabs (vx q) <= M /\ Rabs (vy q) <= M) ->
  layer M (fun q => exists v1 v2, In (v1, v2) l /\ onSeg v1 v2 q)
    (fun q => turnSum l q - sumR (map (fun e : vertex * vertex => angU q (pos (snd e)) - angU q (pos (fst e))) l))
    (sumR (map (fun e => loopInt (segPath (fst e) (snd e)) 0 1) l) + M * sumR (map (fun e : vertex * vertex => vy (pos (snd e)) - vy (pos (fst e))) l)).
Proof.
  induction l as [|[v1 v2] l IH]; intros H.
  - apply (layer_ext _ _ _ _ _ _ _) with (4 := layer_zero M).
    + intros q. split; [intros []|intros (? & ? & [] & _)].
    + intros q _. unfold turnSum, sumR. cbn. ring.
    + unfold sumR. cbn. ring.
  - destruct (H v1 v2 (or_introl eq_refl)) as [Hb HM]. apply (layer_ext _ _ _ _ _ _ _) with (4 := layer_add _ _ _ _ _ _ _ (seg_layer v1 v2 M Hb HM) (IH (fun a b Hin => H a b (or_intror Hin)))).
    + intros q. split; [intros [O|(a & b & Hin & O)]; [exists v1, v2; split; [now left|auto]|exists a, b; split; [now right|auto]]|].
      intros (a & b & [E|Hin] & O); [injection E as <- <-; now left|right; exists a, b; auto].
    + intros q _. cbn [map]. rewrite sumR_cons. cbn [fst snd]. unfold turnSum. cbn [map fold_right fst snd]. ring.
    + cbn [map]. rewrite !sumR_cons. cbn [fst snd]. ring.
Qed.

(** the area of a segment in terms of x dy *)
Lemma area_loopInt v1 v2 : areaOf (seg3 (v1, v2)) = 2 * loopInt (segPath v1 v2) 0 1 - (vx (pos v2) * vy (pos v2) - vx (pos v1) * vy (pos v1)).
Proof.
  pose proof (seg_green v1 v2 (segPath v1 v2) (segPath_ok v1 v2)) as G. pose proof (seg_smoothP v1 v2) as Sm. pose proof (green_cont _ Sm) as Gc.
  set (P := segPath v1 v2) in *. destruct Sm as ((dX & dY & HX & HY & CX & CY) & _).
  assert (EX : forall t, Derive (fun u => vx (P u)) t = dX t) by (intros t; apply is_derive_unique; apply HX).
  assert (EY : forall t, Derive (fun u => vy (P u)) t = dY t) by (intros t; apply is_derive_unique; apply HY).
  assert (XC : forall t, continuous (fun u => vx (P u)) t) by (intros t; apply (ex_derive_continuous (fun u => vx (P u))); eexists; apply HX).
  assert (YC : forall t, continuous (fun u => vy (P u)) t) by (intros t; apply (ex_derive_continuous (fun u => vy (P u))); eexists; apply HY).
  assert (IB : is_RInt (fun t => dX t * vy (P t) + vx (P t) * dY t) 0 1 (vx (P 1) * vy (P 1) - vx (P 0) * vy (P 0))).
  { apply (is_RInt_derive (V := R_CompleteNormedModule) (fun t => vx (P t) * vy (P t))).
    - intros t _. apply (is_derive_mult (fun t => vx (P t)) (fun t => vy (P t)) t (dX t) (dY t)); [apply HX|apply HY|intros; apply Rmult_comm].
    - intros t _. apply (continuous_plus (V := R_NormedModule) (fun t => dX t * vy (P t)) (fun t => vx (P t) * dY t)).
      + exact (continuous_mult (K := R_AbsRing) dX (fun t => vy (P t)) t (CX t) (YC t)).
      + exact (continuous_mult (K := R_AbsRing) (fun t => vx (P t)) dY t (XC t) (CY t)). }
  assert (IL : is_RInt (fun t => vx (P t) * Derive (fun u => vy (P u)) t) 0 1 (loopInt P 0 1)).
  { apply (RInt_correct (V := R_CompleteNormedModule)). apply (ex_RInt_continuous (V := R_CompleteNormedModule)). intros; apply Gc. }
  pose proof (is_RInt_minus (V := R_NormedModule) _ _ _ _ _ _ (is_RInt_scal (V := R_NormedModule) _ _ _ 2 _ IL) IB) as K.
  assert (K' : is_RInt (green P) 0 1 (minus (scal 2 (loopInt P 0 1)) (vx (P 1) * vy (P 1) - vx (P 0) * vy (P 0)))).
  { apply (is_RInt_ext (V := R_NormedModule)) with (2 := K). intros t _. unfold green. rewrite EX, EY. unfold minus, plus, opp, scal. cbn. unfold mult. cbn. rring. }
  pose proof (is_RInt_unique (V := R_CompleteNormedModule) _ _ _ _ G) as U1. pose proof (is_RInt_unique (V := R_CompleteNormedModule) _ _ _ _ K') as U2. rewrite U1 in U2. rewrite U2.
  unfold P. rewrite segPath_0, segPath_1. unfold minus, plus, opp, scal. cbn. unfold mult. cbn. rring.
Qed.

Lemma getArea_loopInt pl : isClosed pl = true -> getArea pl = sumR (map (fun e => loopInt (segPath (fst e) (snd e)) 0 1) (pathSegs pl)).
Proof.
  intros Hc. rewrite getArea_sum by auto. unfold trace. rewrite map_map.
  rewrite (map_ext _ (fun e : vertex * vertex => 2 * loopInt (segPath (fst e) (snd e)) 0 1 + - ((fun v => vx (pos v) * vy (pos v)) (snd e) - (fun v => vx (pos v) * vy (pos v)) (fst e)))).
  2:{ intros [v1 v2]. rewrite area_loopInt. cbn [fst snd]. rring. }
  rewrite sumR_plus. rewrite <- (map_map (fun e : vertex * vertex => (fun v => vx (pos v) * vy (pos v)) (snd e) - (fun v => vx (pos v) * vy (pos v)) (fst e)) Ropp), sumR_map_opp.
  rewrite (closed_telescope pl (fun v => vx (pos v) * vy (pos v))) by auto.
  assert (E : forall l : list (vertex * vertex), sumR (map (fun e => 2 * loopInt (segPath (fst e) (snd e)) 0 1) l) = 2 * sumR (map (fun e => loopInt (segPath (fst e) (snd e)) 0 1) l)).
  { induction l as [|e l IH]; [unfold sumR; cbn; ring|]. cbn [map]. rewrite !sumR_cons, IH. ring. }
  rewrite E. rfield.
Qed.

Lemma sum_turn_closed pl q : isClosed pl = true -> smallBulges pl -> ~ onPath pl q ->
  turnSum (pathSegs pl) q - sumR (map (fun e : vertex * vertex => angU q (pos (snd e)) - angU q (pos (fst e))) (pathSegs pl)) = 2 * PI * IZR (getWindingNumber pl q).
Proof. intros Hc Hb Ho. rewrite (closed_telescope pl (fun v => angU q (pos v))) by auto. rewrite turnSum_winding by auto. ring. Qed.

(** ** C55 *)
(** the polyline lies in the square with half width M *)
Definition withinSquare (pl : polyline) (M : R) : Prop := forall q, onPath pl q -> Rabs (vx q) <= M /\ Rabs (vy q) <= M.

(** the (iterated Riemann) integral of f over the square with half width M around the origin is l: on all horizontal lines but finitely many,
    f is integrable, and these integrals integrate to l. With f = 1 in a region and 0 outside of it, l is the area of the region (in the square). *)
Definition planeIntegral (f : vec -> R) (M l : R) : Prop := exists E : list R,
  (forall y, ~ In y E -> ex_RInt (fun x => f (mkV x y)) (- M) M) /\
  is_RInt (fun y => RInt (fun x => f (mkV x y)) (- M) M) (- M) M l.

(** on all horizontal lines but finitely many, the winding number is integrable, and these integrals integrate to the signed area *)
Theorem C55_area_is_winding_integral pl M : isClosed pl = true -> smallBulges pl -> withinSquare pl M ->
  exists E : list R,
    (forall y, ~ In y E -> ex_RInt (fun x => IZR (getWindingNumber pl (mkV x y))) (- M) M /\ exists F : list R, forall x, onPath pl (mkV x y) -> In x F) /\
    is_RInt (fun y => RInt (fun x => IZR (getWindingNumber pl (mkV x y))) (- M) M) (- M) M (getArea pl).
Proof.
  intros Hc Hb HM. destruct (Rle_dec 0 M) as [M0|M0].
  - destruct (list_layer M (pathSegs pl)) as (E & st & wd & A & B & C & D).
    { intros v1 v2 Hin. split; [exact (seg_start_small pl v1 v2 Hb Hin)|]. intros q O. apply HM. exists v1, v2. auto. }
    change (fun q => exists v1 v2, In (v1, v2) (pathSegs pl) /\ onSeg v1 v2 q) with (onPath pl) in *.
    assert (I : forall y, ~ In y E -> is_RInt (fun x => IZR (getWindingNumber pl (mkV x y))) (- M) M (wd y)).
    { intros y N. destruct (D y N) as (F & HF). apply (is_RInt_except (fun x => st x y) _ F); [lra| |now apply B].
      intros x _ Nx. assert (O : ~ onPath pl (mkV x y)) by (intros O; apply Nx, HF, O). specialize (A x y N O). rewrite (sum_turn_closed pl _ Hc Hb O) in A. pose proof PI_RGT_0. apply Rmult_eq_reg_l with (2 * PI); lra. }
    exists E. split; [intros y N; split; [exists (wd y); now apply I|exact (D y N)]|].
    rewrite (closed_telescope pl (fun v => vy (pos v))) in C by auto. rewrite Rmult_0_r, Rplus_0_r, <- getArea_loopInt in C by auto.
    apply (is_RInt_except wd _ E); [lra| |exact C]. intros y _ N. symmetry. apply (is_RInt_unique (V := R_CompleteNormedModule)). now apply I.
  - (* no point at all *)
    assert (N0 : pathSegs pl = []).
    { destruct (pathSegs pl) as [|[v1 v2] l] eqn:Es; [auto|]. exfalso. destruct (HM (pos v1)) as [K _]; [exists v1, v2; rewrite Es; split; [now left|apply seg_ends]|]. pose proof (Rabs_pos (vx (pos v1))). lra. }
    assert (W0 : forall q, getWindingNumber pl q = 0%Z). { intros q. rewrite getWindingNumber_sum by auto. unfold trace. rewrite N0. reflexivity. }
    assert (A0 : getArea pl = 0). { rewrite getArea_sum by auto. unfold trace. rewrite N0. unfold sumR. cbn [map fold_right]. rcbn. lra. }
    exists []. split.
    + intros y _. split; [exists 0; apply (is_RInt_ext (V := R_NormedModule) (fun _ => 0)); [intros; now rewrite W0|apply is_RInt_zero]|]. exists []. intros x (v1 & v2 & Hin & _). rewrite N0 in Hin. destruct Hin.
    + rewrite A0. apply (is_RInt_ext (V := R_NormedModule) (fun _ => 0)); [|apply is_RInt_zero]. intros y _. symmetry. apply (is_RInt_unique (V := R_CompleteNormedModule)). apply (is_RInt_ext (V := R_NormedModule) (fun _ => 0)); [intros; now rewrite W0|apply is_RInt_zero].
Qed.

(** the same with [planeIntegral] *)
Corollary C55_winding_integral pl M : isClosed pl = true -> smallBulges pl -> withinSquare pl M ->
  planeIntegral (fun q => IZR (getWindingNumber pl q)) M (getArea pl).
Proof. intros Hc Hb HM. destruct (C55_area_is_winding_integral pl M Hc Hb HM) as (E & A & B). exists E. split; [intros y N; now apply A|exact B]. Qed.

(** ** C54: simple closed polylines *)
Lemma path_bounded pl : smallBulges pl -> exists M, 0 < M /\ withinSquare pl M.
Proof.
  intros Hb. destruct (C47_far_zero pl Hb) as (B & HB & H). exists B. split; [auto|]. intros q O.
  assert (D : dist (mkV 0 0) q <= B) by (apply Rnot_lt_le; intros L; now apply (proj1 (H q L))).
  assert (S : vx q * vx q + vy q * vy q <= B * B). { pose proof (dist_sq (mkV 0 0) q) as Q. cbn [vx vy] in Q. rcbn. pose proof (dist_nonneg (mkV 0 0) q). nra. }
  split; apply Rabs_le; nra.
Qed.

Lemma near_square p q d : 0 < d -> Rabs (vx q - vx p) < d / 2 -> Rabs (vy q - vy p) < d / 2 -> dist p q < d.
Proof.
  intros Hd Hx Hy. apply Rabs_def2 in Hx. apply Rabs_def2 in Hy. unfold dist. rewrite <- (sqrt_square d) by lra. apply sqrt_lt_1_alt. split; [pose proof (pow2_ge_0 (vx p - vx q)); pose proof (pow2_ge_0 (vy p - vy q)); lra|]. 
  replace ((vx p - vx q) ^ 2 + (vy p - vy q) ^ 2) with ((vx q - vx p) * (vx q - vx p) + (vy q - vy p) * (vy q - vy p)) by ring. set (a := vx q - vx p) in *. set (b := vy q - vy p) in *. assert (a * a < d / 2 * (d / 2)) by nra. assert (b * b < d / 2 * (d / 2)) by nra. nra.
Qed.

Lemma RInt_window_bound (f : R -> R) (E : list R) a b c d m l : a <= c -> c <= d -> d <= b -> is_RInt f a b l -> (forall x, a < x < b -> ~ In x E -> 0 <= f x) -> (forall x, c < x < d -> ~ In x E -> m <= f x) -> m * (d - c) <= l.
Proof.
  intros Hac Hcd Hdb Hf H0 Hm. set (g := fun x => if Rlt_dec c x then if Rlt_dec x d then m else 0 else 0).
  assert (Ig : is_RInt g a b ((d - c) * m)).
  { apply (is_RInt_window (fun _ => m) g a b c d); auto; [apply is_RInt_c| |]; intros x Hx Hc; unfold g; repeat destruct (Rlt_dec _ _); lra. }
  pose proof (is_RInt_minus (V := R_NormedModule) _ _ _ _ _ _ Hf Ig) as K. unfold minus, plus, opp in K. cbn in K.
  apply (RInt_nonneg_except _ (c :: d :: E)) in K; [lra|lra|]. intros x Hx N. unfold g. assert (~ In x E) by (intros Q; apply N; cbn; auto). specialize (H0 x Hx H). destruct (Rlt_dec c x); [destruct (Rlt_dec x d)|]; [specialize (Hm x ltac:(lra) H); lra|lra|lra].
Qed.

Section SimpleArea.
Variable pl : polyline.
Hypothesis CL : closedPline pl.
Hypothesis SB : smallBulges pl.
Variables (w : Z) (q0 : vec).
Hypothesis Hw : w = 1%Z \/ w = (-1)%Z.
Hypothesis HW : forall q, ~ onPath pl q -> getWindingNumber pl q = 0%Z \/ getWindingNumber pl q = w.
Hypothesis H0 : ~ onPath pl q0.
Hypothesis W0 : getWindingNumber pl q0 = w.

Lemma ww : IZR w * IZR w = 1.
Proof. destruct Hw as [-> | ->]; cbn; lra. Qed.

Lemma sW q : ~ onPath pl q -> IZR w * IZR (getWindingNumber pl q) = if inside pl q then 1 else 0.
Proof.
  intros O. unfold inside. destruct (HW q O) as [-> | ->]; [cbn; lra|]. rewrite ww. destruct Hw as [-> | ->]; reflexivity.
Qed.

(** the inside of the polyline has the absolute value of the area as its area *)
Lemma inside_area M : withinSquare pl M -> exists E : list R,
  (forall y, ~ In y E -> ex_RInt (fun x => if inside pl (mkV x y) then 1 else 0) (- M) M) /\
  is_RInt (fun y => RInt (fun x => if inside pl (mkV x y) then 1 else 0) (- M) M) (- M) M (IZR w * getArea pl).
Proof.
  intros HM. destruct (C55_area_is_winding_integral pl M (proj1 CL) SB HM) as (E & A & B).
  assert (M0 : 0 <= M). { destruct CL as [_ H2]. destruct (pathSegs pl) as [|[v1 v2] l] eqn:Es; [destruct (seg_at pl 0 (proj1 CL) H2 ltac:(lia)) as (_ & _ & K); rewrite Es in K; destruct K|].
    destruct (HM (pos v1)) as [K _]; [exists v1, v2; rewrite Es; split; [now left|apply seg_ends]|]. pose proof (Rabs_pos (vx (pos v1))). lra. }
  assert (I : forall y, ~ In y E -> is_RInt (fun x => if inside pl (mkV x y) then 1 else 0) (- M) M (IZR w * RInt (fun x => IZR (getWindingNumber pl (mkV x y))) (- M) M)).
  { intros y N. destruct (A y N) as (Ex & F & HF). apply (is_RInt_except (fun x => IZR w * IZR (getWindingNumber pl (mkV x y))) _ F); [lra| |].
    - intros x _ Nx. apply sW. intros O. apply Nx, HF, O.
    - exact (is_RInt_scal (V := R_NormedModule) _ _ _ (IZR w) _ (RInt_correct (V := R_CompleteNormedModule) _ _ _ Ex)). }
  exists E. split; [intros y N; eexists; now apply I|].
  apply (is_RInt_except (fun y => IZR w * RInt (fun x => IZR (getWindingNumber pl (mkV x y))) (- M) M) _ E); [lra| |].
  - intros y _ N. symmetry. apply (is_RInt_unique (V := R_CompleteNormedModule)). now apply I.
  - exact (is_RInt_scal (V := R_NormedModule) _ _ _ (IZR w) _ B).
Qed.

Lemma area_sign : 0 < IZR w * getArea pl.
Proof.
  destruct (C47_locally_constant pl q0 SB H0) as (d & Hd & Hloc). destruct (path_bounded pl SB) as (M1 & HM1 & B1).
  set (M := M1 + Rabs (vx q0) + Rabs (vy q0) + d). pose proof (Rabs_pos (vx q0)). pose proof (Rabs_pos (vy q0)).
  assert (HM : withinSquare pl M) by (intros q O; destruct (B1 q O); unfold M; lra).
  destruct (inside_area M HM) as (E & A & B).
  assert (Bx : - M <= vx q0 - d / 2 /\ vx q0 + d / 2 <= M) by (unfold M, Rabs in *; destruct (Rcase_abs (vx q0)), (Rcase_abs (vy q0)); lra).
  assert (By : - M <= vy q0 - d / 2 /\ vy q0 + d / 2 <= M) by (unfold M, Rabs in *; destruct (Rcase_abs (vx q0)), (Rcase_abs (vy q0)); lra).
  assert (In1 : forall x y, Rabs (x - vx q0) < d / 2 -> Rabs (y - vy q0) < d / 2 -> inside pl (mkV x y) = true).
  { intros x y Hx Hy. destruct (Hloc (mkV x y)) as [_ Ew]; [apply near_square; auto|]. unfold inside. rewrite Ew, W0. destruct Hw as [-> | ->]; reflexivity. }
  assert (K : d * ((vy q0 + d / 2) - (vy q0 - d / 2)) <= IZR w * getArea pl).
  { apply (RInt_window_bound _ E (- M) M (vy q0 - d / 2) (vy q0 + d / 2) d _ ltac:(lra) ltac:(lra) ltac:(lra) B).
    - intros y Hy N. pose proof (RInt_correct (V := R_CompleteNormedModule) _ _ _ (A y N)) as I. apply (is_RInt_ge_0 (fun x => if inside pl (mkV x y) then 1 else 0) (- M) M _ ltac:(lra) I). intros x _. destruct (inside _ _); lra.
    - intros y Hy N. pose proof (RInt_correct (V := R_CompleteNormedModule) _ _ _ (A y N)) as I.
      replace d with (1 * ((vx q0 + d / 2) - (vx q0 - d / 2))) at 1 by field. apply (RInt_window_bound _ [] (- M) M (vx q0 - d / 2) (vx q0 + d / 2) 1 _ ltac:(lra) ltac:(lra) ltac:(lra) I).
      + intros x _ _. destruct (inside _ _); lra.
      + intros x Hx _. rewrite In1; [lra| |]; apply Rabs_def1; lra. }
  nra.
Qed.
End SimpleArea.

(** a closed polyline whose path does not touch itself separates the plane into the points with winding number 0 and the points with
    winding number 1 or -1; the sign is the sign of its area, which is not 0; and there are points of both kinds arbitrarily close to every point of the path *)
Theorem C54_simple_winding pl : closedPline pl -> smallBulges pl -> simplePath pl ->
  getArea pl <> 0 /\
  (forall q, ~ onPath pl q -> getWindingNumber pl q = 0%Z \/ getWindingNumber pl q = (if Rlt_dec (getArea pl) 0 then (-1)%Z else 1%Z)) /\
  (forall x e, onPath pl x -> 0 < e -> (exists q, dist x q < e /\ insideOf pl q) /\ (exists q, dist x q < e /\ outsideOf pl q)).
Proof.
  intros CL SB SP. destruct (simple_winding pl CL SB SP) as (w & Hw & HW & HN).
  assert (Ex : exists x, onPath pl x). { destruct (vertexes pl) as [|v0 vs] eqn:Ev; [destruct CL as [_ H2]; rewrite Ev in H2; cbn in H2; lia|]. exists (pos v0). apply (first_onPath pl v0 vs Ev). apply CL. }
  destruct Ex as (x0 & O0). destruct (HN x0 1 O0 ltac:(lra)) as ((q0 & _ & Oq & Wq) & _).
  pose proof (area_sign pl CL SB w q0 Hw HW Oq Wq) as S.
  assert (N : getArea pl <> 0) by (intros E; rewrite E in S; lra). split; [auto|].
  assert (Ew : w = (if Rlt_dec (getArea pl) 0 then (-1)%Z else 1%Z)) by (destruct Hw as [-> | ->], (Rlt_dec (getArea pl) 0); auto; lra).
  rewrite <- Ew. split; [auto|]. intros x e Ox He. destruct (HN x e Ox He) as ((q1 & D1 & O1 & W1) & (q2 & D2 & O2 & W2)). split; [exists q1|exists q2]; (split; [auto|]); split; auto.
  rewrite W1. destruct Hw as [-> | ->]; discriminate.
Qed.

Corollary C54_simpleLoop pl : closedPline pl -> smallBulges pl -> simplePath pl -> simpleLoop pl.
Proof. intros CL SB SP. destruct (C54_simple_winding pl CL SB SP) as (_ & H & _). exact H. Qed.

(** the points inside it form a region whose area is the absolute value of the library's area *)
Theorem C54_inside_area pl M : closedPline pl -> smallBulges pl -> simplePath pl -> withinSquare pl M ->
  planeIntegral (fun q => if inside pl q then 1 else 0) M (Rabs (getArea pl)).
Proof.
  intros CL SB SP HM. destruct (simple_winding pl CL SB SP) as (w & Hw & HW & HN).
  assert (Ex : exists x, onPath pl x). { destruct (vertexes pl) as [|v0 vs] eqn:Ev; [destruct CL as [_ H2]; rewrite Ev in H2; cbn in H2; lia|]. exists (pos v0). apply (first_onPath pl v0 vs Ev). apply CL. }
  destruct Ex as (x0 & O0). destruct (HN x0 1 O0 ltac:(lra)) as ((q0 & _ & Oq & Wq) & _).
  pose proof (area_sign pl CL SB w q0 Hw HW Oq Wq) as S. replace (Rabs (getArea pl)) with (IZR w * getArea pl); [exact (inside_area pl CL SB w q0 Hw HW Wq M HM)|].
  destruct Hw as [-> | ->]; [rewrite Rabs_right by lra|rewrite Rabs_left by lra]; ring.
Qed.

(** *** A square is such a polyline *)
Lemma square_simplePath x y w : 0 < w -> simplePath (square x y w).
Proof.
  intros Hw i j s t Hi Hj Hs Ht E. cbn [square vertexes length] in Hi, Hj.
  assert (L : forall a b c d u, segPath (mkVertex a b 0) (mkVertex c d 0) u = mkV (a + u * (c - a)) (b + u * (d - b))).
  { intros a b c d u. rewrite segPath_line by (unfold isLine; cbn; rewrite Rabs_R0; lra). reflexivity. }
  unfold seg in E.
  destruct i as [|[|[|[|i]]]]; try lia; destruct j as [|[|[|[|j]]]]; try lia; unfold vert, square, at_ in E; cbn [vertexes length Nat.add Nat.modulo Nat.divmod fst snd nth Nat.sub] in E; rewrite !L in E; injection E as E1 E2; first [split; [reflexivity|nra]|exfalso; nra].
Qed.

Example C54_square : let pl := square 3 (-2) 5 in closedPline pl /\ smallBulges pl /\ simplePath pl /\ withinSquare pl 8 /\ getArea pl <> 0.
Proof.
  intros pl. assert (C : closedPline pl) by (split; [reflexivity|cbn; lia]). assert (B : smallBulges pl) by (repeat constructor; cbn; rewrite Rabs_R0; lra).
  assert (S : simplePath pl) by (apply square_simplePath; lra). split; [auto|]. split; [auto|]. split; [auto|]. split; [|now apply C54_simple_winding].
  intros q (v1 & v2 & Hin & O). destruct (square_segs _ _ _ _ _ Hin) as [L H]. destruct (square_onSeg v1 v2 q L O) as (t & Ht & -> & ->). 
  destruct H as [[-> ->]|[[-> ->]|[[-> ->]|[-> ->]]]]; cbn [pos mkVertex vx vy]; split; apply Rabs_le; lra.
Qed.

(** *** ... and so is a circle made of two half circles *)
Lemma circle_simplePath k r : 0 < r -> simplePath (circle k r).
Proof.
  intros Hr. pose proof PI_RGT_0 as P0.
  assert (U : forall u, 0 <= u < 1 -> 0 <= sin (u * PI) /\ (sin (u * PI) = 0 -> u = 0)).
  { intros u Hu. assert (0 <= u * PI < PI) by nra. split; [apply sin_ge_0; lra|]. intros E. destruct (Req_dec u 0) as [|N]; [auto|]. assert (0 < u * PI) by nra. pose proof (sin_gt_0 (u * PI)). lra. }
  assert (X : forall s t, 0 <= s < 1 -> 0 <= t < 1 -> k - r * cos (s * PI) = k + r * cos (t * PI) -> - (r * sin (s * PI)) = r * sin (t * PI) -> False).
  { intros s t Hs Ht E1 E2. destruct (U s Hs) as [Us Zs]. destruct (U t Ht) as [Ut Zt]. assert (sin (s * PI) = 0 /\ sin (t * PI) = 0) as [S T] by (split; nra). apply Zs in S. apply Zt in T. subst. rewrite Rmult_0_l, cos_0 in E1. nra. }
  intros i j s t Hi Hj Hs Ht E. cbn [circle vertexes length] in Hi, Hj.
  assert (V0 : seg (circle k r) 0 = segPath (mkVertex (k - r) 0 1) (mkVertex (k + r) 0 1)) by reflexivity.
  assert (V1 : seg (circle k r) 1 = segPath (mkVertex (k + r) 0 1) (mkVertex (k - r) 0 1)) by reflexivity.
  assert (N : forall a b u v, a <> b -> 0 <= u < 1 -> 0 <= v < 1 -> segPath (mkVertex a 0 1) (mkVertex b 0 1) u = segPath (mkVertex a 0 1) (mkVertex b 0 1) v -> u = v).
  { intros a b u v Hab Hu Hv. apply segPath_inj; try lra; cbn [bulge pos mkVertex]; [rewrite Rabs_R1; lra|]. intros Q. injection Q. auto. }
  destruct i as [|[|i]]; try lia; destruct j as [|[|j]]; try lia; rewrite ?V0, ?V1 in E.
  - split; [reflexivity|]. apply N in E; auto. lra.
  - exfalso. rewrite pathAB, pathBA in E. injection E. intros E2 E1. exact (X s t Hs Ht E1 E2).
  - exfalso. rewrite pathAB, pathBA in E. injection E. intros E2 E1. apply (X t s Ht Hs); lra.
  - split; [reflexivity|]. apply N in E; auto. lra.
Qed.

Example C54_circle : let pl := circle 1 2 in closedPline pl /\ smallBulges pl /\ simplePath pl /\ insideOf pl (mkV 1 0).
Proof.
  intros pl. split; [split; [reflexivity|cbn; lia]|]. split; [apply circle_small|]. split; [apply circle_simplePath; lra|]. apply circle_inside; [lra|]. unfold dist. cbn [vx vy]. replace ((1 - 1) ^ 2 + (0 - 0) ^ 2) with 0 by ring. rewrite sqrt_0. lra.
Qed.
