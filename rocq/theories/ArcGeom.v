(** * ArcGeom: arcs given by a bulge (C12 and the lemmas used for C13-C16, C23, C24, C26, C28) *)
From Coq Require Import ZArith Reals Lra Lia Psatz List Bool.
From Verif Require Import Base Num MathUtils PlineSegment RGeom Spec PropsMath.
Import ListNotations.
Open Scope R_scope.

(** ** Trigonometry of the bulge *)
Lemma bulge_trig b : 0 < cos (atan b) /\ sin (atan b) = b * cos (atan b) /\
  cos (atan b) * cos (atan b) * (1 + b * b) = 1.
Proof.
  destruct (atan_bound b) as [H1 H2].
  assert (Hc : 0 < cos (atan b)) by (apply cos_gt_0; lra).
  assert (Hs : sin (atan b) = b * cos (atan b)).
  { pose proof (tan_atan b) as E. unfold tan in E. rewrite <- E at 2. field. lra. }
  repeat split; auto.
  pose proof (sin2_cos2 (atan b)) as E. unfold Rsqr in E. rewrite Hs in E. lra.
Qed.

Lemma cos_half b : cos (2 * atan b) = (1 - b * b) / (1 + b * b).
Proof.
  destruct (bulge_trig b) as (Hc & Hs & E). rewrite cos_2a, Hs.
  assert (Ec : cos (atan b) * cos (atan b) = / (1 + b * b)).
  { apply Rmult_eq_reg_r with (1 + b * b); [|nra]. rewrite E. field. nra. }
  replace (cos (atan b) * cos (atan b) - b * cos (atan b) * (b * cos (atan b)))
    with ((cos (atan b) * cos (atan b)) * (1 - b * b)) by ring. rewrite Ec. field. nra.
Qed.

Lemma sin_half b : sin (2 * atan b) = 2 * b / (1 + b * b).
Proof.
  destruct (bulge_trig b) as (Hc & Hs & E). rewrite sin_2a, Hs.
  assert (Ec : cos (atan b) * cos (atan b) = / (1 + b * b)).
  { apply Rmult_eq_reg_r with (1 + b * b); [|nra]. rewrite E. field. nra. }
  replace (2 * (b * cos (atan b)) * cos (atan b))
    with (2 * b * (cos (atan b) * cos (atan b))) by ring. rewrite Ec. field. nra.
Qed.

Lemma sin_half_ne b : b <> 0 -> sin (2 * atan b) <> 0.
Proof.
  intros Hb. rewrite sin_half. unfold Rdiv. intros H.
  apply Rmult_integral in H. destruct H as [H|H]; [lra|].
  apply Rinv_neq_0_compat in H; [auto|nra].
Qed.

Lemma sweep_half b : sweep b = 2 * (2 * atan b).
Proof. unfold sweep. lra. Qed.

Lemma cos_sweep b : cos (sweep b) = 1 - 2 * (2 * b / (1 + b * b)) * (2 * b / (1 + b * b)).
Proof. rewrite sweep_half, cos_2a_sin, sin_half. reflexivity. Qed.

Lemma sin_sweep b : sin (sweep b) = 2 * (2 * b / (1 + b * b)) * ((1 - b * b) / (1 + b * b)).
Proof. rewrite sweep_half, sin_2a, sin_half, cos_half. reflexivity. Qed.

Lemma sweep_bound b : - (2 * PI) < sweep b < 2 * PI.
Proof. unfold sweep. destruct (atan_bound b). lra. Qed.

Lemma atan_1' : atan 1 = PI / 4.
Proof. apply atan_1. Qed.

Lemma sweep_le_pi b : Rabs b <= 1 -> - PI <= sweep b <= PI.
Proof.
  intros H. unfold sweep. assert (Hb : -1 <= b <= 1) by (unfold Rabs in H; destruct (Rcase_abs b); lra).
  assert (A : atan b <= atan 1). { destruct (Req_dec b 1) as [->|]; [lra|]. left. apply atan_increasing. lra. }
  assert (B : atan (-1) <= atan b). { destruct (Req_dec b (-1)) as [->|]; [lra|]. left. apply atan_increasing. lra. }
  replace (-1) with (Ropp 1) in B by lra. rewrite atan_opp in B. rewrite atan_1 in A, B. lra.
Qed.

Lemma atan_pos b : 0 < b -> 0 < atan b.
Proof. intros. rewrite <- atan_0. now apply atan_increasing. Qed.
Lemma atan_neg b : b < 0 -> atan b < 0.
Proof. intros. rewrite <- atan_0. now apply atan_increasing. Qed.

Lemma sweep_pos b : 0 < b -> 0 < sweep b.
Proof. intros H. unfold sweep. pose proof (atan_pos b H). lra. Qed.
Lemma sweep_neg b : b < 0 -> sweep b < 0.
Proof. intros H. unfold sweep. pose proof (atan_neg b H). lra. Qed.
Lemma sweep_opp b : sweep (- b) = - sweep b.
Proof. unfold sweep. rewrite atan_opp. lra. Qed.

(** ** Rotations *)
Lemma rot_0 c p : rot c 0 p = p.
Proof. unfold rot. rewrite cos_0, sin_0. apply vec_eq; cbn; ring. Qed.
Lemma rot_rot c a b p : rot c a (rot c b p) = rot c (a + b) p.
Proof. unfold rot. rewrite cos_plus, sin_plus. apply vec_eq; cbn; ring. Qed.
Lemma rot_congruent c a b p : congruent a b -> rot c a p = rot c b p.
Proof. intros H. unfold rot. now rewrite (congruent_cos _ _ H), (congruent_sin _ _ H). Qed.

(** centre of an arc in closed form *)
Definition cK (b : R) : R := (1 - b * b) / (4 * b).
Definition ctr (p1 p2 : vec) (b : R) : vec :=
  mkV ((vx p1 + vx p2) / 2 - cK b * (vy p2 - vy p1))
      ((vy p1 + vy p2) / 2 + cK b * (vx p2 - vx p1)).

Lemma ctr_spec p1 p2 b : b <> 0 -> arcCentre p1 p2 b (ctr p1 p2 b).
Proof.
  intros Hb. unfold arcCentre, rot, ctr, cK. rewrite cos_sweep, sin_sweep.
  apply vec_eq; cbn; field; split; nra.
Qed.

Lemma ctr_unique p1 p2 b c : b <> 0 -> arcCentre p1 p2 b c -> c = ctr p1 p2 b.
Proof.
  intros Hb H. pose proof (ctr_spec p1 p2 b Hb) as H'. unfold arcCentre in *. rewrite <- H' in H.
  set (c' := ctr p1 p2 b) in *. clearbody c'. clear H'.
  unfold rot in H. injection H as H1 H2. rewrite cos_sweep, sin_sweep in H1, H2.
  set (s := 2 * b / (1 + b * b)) in *. set (k := (1 - b * b) / (1 + b * b)) in *.
  assert (Hs : s <> 0).
  { unfold s. intros E. apply Rmult_integral in E. destruct E as [E|E]; [lra|].
    apply Rinv_neq_0_compat in E; [auto|nra]. }
  assert (Hk : s * s + k * k = 1) by (unfold s, k; field; nra).
  rcbn. destruct c as [cx cy], c' as [dx dy], p1 as [x y]. rcbn.
  set (ex := cx - dx). set (ey := cy - dy).
  assert (E1 : s * (s * ex + k * ey) = 0) by (unfold ex, ey; nra).
  assert (E2 : s * (s * ey - k * ex) = 0) by (unfold ex, ey; nra).
  apply Rmult_integral in E1, E2. destruct E1 as [|E1]; [contradiction|]. destruct E2 as [|E2]; [contradiction|].
  assert (F1 : ex = s * (s * ex + k * ey) - k * (s * ey - k * ex)) by (replace ex with ((s*s+k*k)*ex) at 1 by (rewrite Hk; ring); ring).
  assert (F2 : ey = k * (s * ex + k * ey) + s * (s * ey - k * ex)) by (replace ey with ((s*s+k*k)*ey) at 1 by (rewrite Hk; ring); ring).
  rewrite E1, E2 in F1, F2. unfold ex, ey in *. apply vec_eq; cbn; lra.
Qed.

(** ** The code's centre and radius *)
Lemma Rabs_cases x : (0 <= x /\ Rabs x = x) \/ (x < 0 /\ Rabs x = - x).
Proof. unfold Rabs. destruct (Rcase_abs x); [right|left]; split; lra. Qed.

Lemma sq_nonneg a : 0 <= a * a.
Proof. apply Rle_0_sqr. Qed.
Lemma sumsq_nonneg a b : 0 <= a * a + b * b.
Proof. pose proof (sq_nonneg a). pose proof (sq_nonneg b). lra. Qed.
Lemma sumsq_pos a b : a <> 0 \/ b <> 0 -> 0 < a * a + b * b.
Proof.
  intros H. pose proof (Rle_0_sqr a) as A. pose proof (Rle_0_sqr b) as B. unfold Rsqr in *.
  destruct H as [H|H]; apply Rsqr_pos_lt in H; unfold Rsqr in H; lra.
Qed.

Lemma vec_ne (p q : vec) : p <> q -> vx q - vx p <> 0 \/ vy q - vy p <> 0.
Proof.
  intros H. destruct (Req_dec (vx q - vx p) 0); [|now left].
  destruct (Req_dec (vy q - vy p) 0); [|now right]. exfalso. apply H. apply vec_eq; rcbn; lra.
Qed.

Lemma len_pos p1 p2 : p1 <> p2 ->
  0 < sqrt ((vx p2 - vx p1) * (vx p2 - vx p1) + (vy p2 - vy p1) * (vy p2 - vy p1)).
Proof. intros H. apply sqrt_lt_R0, sumsq_pos. now apply vec_ne. Qed.

Lemma center_R v1 v2 : bulge v1 <> 0 -> pos v1 <> pos v2 ->
  center (arcRadiusAndCenter v1 v2) = ctr (pos v1) (pos v2) (bulge v1).
Proof.
  intros Hb Hne. pose proof (len_pos _ _ Hne) as Hd.
  unfold arcRadiusAndCenter, bulgeIsNeg, vlength, dot, vsub, px, py, ctr, cK. rcbn.
  set (d := sqrt _) in *. clearbody d.
  destruct (Rabs_cases (bulge v1)) as [[H E]|[H E]]; rewrite E.
  - assert (Rltb (bulge v1) 0 = false) as -> by (apply Rltb_false; lra).
    apply vec_eq; cbn; field; repeat split; lra.
  - assert (Rltb (bulge v1) 0 = true) as -> by (apply Rltb_spec; lra).
    apply vec_eq; cbn; field; repeat split; lra.
Qed.

Definition chord (p1 p2 : vec) : R :=
  sqrt ((vx p2 - vx p1) * (vx p2 - vx p1) + (vy p2 - vy p1) * (vy p2 - vy p1)).

Lemma chord_sq p1 p2 : chord p1 p2 * chord p1 p2 =
  (vx p2 - vx p1) * (vx p2 - vx p1) + (vy p2 - vy p1) * (vy p2 - vy p1).
Proof. apply sqrt_sqrt, sumsq_nonneg. Qed.
Lemma chord_pos p1 p2 : p1 <> p2 -> 0 < chord p1 p2.
Proof. apply len_pos. Qed.

Lemma radius_R v1 v2 :
  radius (arcRadiusAndCenter v1 v2) =
  chord (pos v1) (pos v2) * (bulge v1 * bulge v1 + 1) / (4 * Rabs (bulge v1)).
Proof.
  unfold arcRadiusAndCenter, bulgeIsNeg, vlength, dot, vsub, px, py. rcbn.
  destruct (Rltb (bulge v1) 0); cbn [radius]; unfold chord;
  replace (Rabs (bulge v1) * Rabs (bulge v1)) with (bulge v1 * bulge v1)
    by (symmetry; rewrite <- Rabs_mult; apply Rabs_pos_eq; nra); reflexivity.
Qed.

Lemma radius_pos v1 v2 : bulge v1 <> 0 -> pos v1 <> pos v2 ->
  0 < radius (arcRadiusAndCenter v1 v2).
Proof.
  intros Hb Hne. rewrite radius_R. pose proof (chord_pos _ _ Hne).
  pose proof (Rabs_pos_lt _ Hb). apply Rdiv_lt_0_compat; nra.
Qed.

Lemma radius_sq v1 v2 : bulge v1 <> 0 ->
  radius (arcRadiusAndCenter v1 v2) * radius (arcRadiusAndCenter v1 v2) =
  (vx (pos v1) - vx (ctr (pos v1) (pos v2) (bulge v1))) ^ 2 +
  (vy (pos v1) - vy (ctr (pos v1) (pos v2) (bulge v1))) ^ 2.
Proof.
  intros Hb. rewrite radius_R. unfold ctr, cK. cbn [vx vy].
  pose proof (chord_sq (pos v1) (pos v2)) as E. set (d := chord _ _) in *. clearbody d.
  assert (F : 4 * Rabs (bulge v1) * (4 * Rabs (bulge v1)) = 16 * (bulge v1 * bulge v1)).
  { replace (bulge v1 * bulge v1) with (Rabs (bulge v1) * Rabs (bulge v1)); [ring|].
    rewrite <- Rabs_mult. apply Rabs_pos_eq. nra. }
  pose proof (Rabs_no_R0 _ Hb) as Ha.
  replace (d * (bulge v1 * bulge v1 + 1) / (4 * Rabs (bulge v1)) *
           (d * (bulge v1 * bulge v1 + 1) / (4 * Rabs (bulge v1))))
    with ((d * d) * (bulge v1 * bulge v1 + 1) * (bulge v1 * bulge v1 + 1) /
          (4 * Rabs (bulge v1) * (4 * Rabs (bulge v1)))) by (field; auto).
  rewrite F, E. rcbn. field. auto.
Qed.

(** ** C12 *)
Theorem C12_arc_centre_radius (v1 v2 : vertex) :
  bulge v1 <> 0 -> pos v1 <> pos v2 ->
  let arc := arcRadiusAndCenter v1 v2 in
  rot (center arc) (4 * atan (bulge v1)) (pos v1) = pos v2 /\
  dist (center arc) (pos v1) = radius arc /\ dist (center arc) (pos v2) = radius arc /\
  0 < radius arc /\
  (forall c, rot c (4 * atan (bulge v1)) (pos v1) = pos v2 -> c = center arc).
Proof.
  intros Hb Hne arc. pose proof (radius_pos _ _ Hb Hne) as Hr. fold arc in Hr.
  pose proof (radius_sq v1 v2 Hb) as Hq. fold arc in Hq.
  pose proof (center_R _ _ Hb Hne) as Ec. fold arc in Ec. rewrite Ec. clear Ec.
  set (c := ctr (pos v1) (pos v2) (bulge v1)) in *. pose proof (ctr_spec (pos v1) (pos v2) _ Hb) as Hc.
  unfold arcCentre, sweep in Hc. fold c in Hc.
  assert (D1 : dist c (pos v1) = radius arc).
  { unfold dist. replace ((vx c - vx (pos v1)) ^ 2 + (vy c - vy (pos v1)) ^ 2)
      with (radius arc * radius arc) by (rewrite Hq; rcbn; ring).
    apply sqrt_square. lra. }
  split; [exact Hc|]. split; [exact D1|]. split.
  - rewrite <- D1. unfold dist. f_equal. rewrite <- Hc. unfold rot. rcbn.
    pose proof (sin2_cos2 (4 * atan (bulge v1))) as E. unfold Rsqr in E.
    set (C := cos (4 * atan (bulge v1))) in *. set (S := sin (4 * atan (bulge v1))) in *.
    transitivity ((S * S + C * C) * ((vx c - vx (pos v1)) ^ 2 + (vy c - vy (pos v1)) ^ 2)); [ring|].
    rewrite E. ring.
  - split; [exact Hr|]. intros c' Hc'. apply ctr_unique; auto.
Qed.

(** ** The arc in the frame of its chord: the workhorse for boxes, areas, windings.
    u runs from -psi to psi where psi is half the sweep angle. *)
Lemma arc_frame p1 p2 b t : b <> 0 ->
  let psi := 2 * atan b in
  let u := (2 * t - 1) * psi in
  let al := sin u / (2 * sin psi) in
  let be := (cos psi - cos u) / (2 * sin psi) in
  rot (ctr p1 p2 b) (t * sweep b) p1 =
  mkV ((vx p1 + vx p2) / 2 + al * (vx p2 - vx p1) - be * (vy p2 - vy p1))
      ((vy p1 + vy p2) / 2 + al * (vy p2 - vy p1) + be * (vx p2 - vx p1)).
Proof.
  intros Hb psi u al be.
  assert (Hs : sin psi <> 0) by now apply sin_half_ne.
  assert (HK : cK b = cos psi / (2 * sin psi)).
  { unfold cK, psi. rewrite cos_half, sin_half. field. split; nra. }
  replace (t * sweep b) with (u + psi) by (unfold u, psi, sweep; lra).
  unfold rot, ctr. rewrite HK, cos_plus, sin_plus.
  pose proof (sin2_cos2 psi) as E. unfold Rsqr in E.
  assert (Ec : cos psi * cos psi = 1 - sin psi * sin psi) by lra.
  unfold al, be. clearbody u. clear HK al be.
  apply vec_eq; cbn; field_simplify_eq; auto; try ring [Ec]; nra.
Qed.

Lemma segPoint_arc v1 v2 t q : ~ isLine v1 ->
  segPoint v1 v2 t q <-> q = rot (ctr (pos v1) (pos v2) (bulge v1)) (t * sweep (bulge v1)) (pos v1).
Proof.
  intros Hl. assert (Hb : bulge v1 <> 0).
  { intros E. apply Hl. unfold isLine. rewrite E, Rabs_R0. lra. }
  split.
  - intros [[H _]|[_ (c & Hc & ->)]]; [contradiction|]. now rewrite (ctr_unique _ _ _ _ Hb Hc).
  - intros ->. right. split; auto. exists (ctr (pos v1) (pos v2) (bulge v1)). split; auto. now apply ctr_spec.
Qed.

Lemma segPoint_line v1 v2 t q : isLine v1 -> segPoint v1 v2 t q <-> q = lerp (pos v1) (pos v2) t.
Proof.
  intros Hl. split.
  - intros [[_ H]|[H _]]; [auto|contradiction].
  - intros ->. now left.
Qed.

Lemma bulgeIsZero_R v : bulgeIsZero v = true <-> isLine v.
Proof. unfold bulgeIsZero, isLine. rcbn. apply Rltb_spec. Qed.
Lemma bulgeIsZero_false v : bulgeIsZero v = false <-> ~ isLine v.
Proof. rewrite <- bulgeIsZero_R. destruct (bulgeIsZero v); split; congruence. Qed.
Lemma notLine_ne v : ~ isLine v -> bulge v <> 0.
Proof. intros Hl E. apply Hl. unfold isLine. rewrite E, Rabs_R0. lra. Qed.
