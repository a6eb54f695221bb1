(** * A family of curve pieces whose turning is, up to whole turns, the turning of pieces that avoid the point: it has no loose ends (used by C67) *)
From Coq Require Import ZArith Reals Lra Lia Psatz List Bool Arith Permutation Classical.
From Coquelicot Require Import Coquelicot.
From Verif Require Import Base Num MathUtils PlineSegment SpatialIndex Polyline RGeom Spec PropsMath ArcGeom Polar PropsPolyline Turning PropsWinding PropsRegion PropsPieces PropsBoolOps PropsCover PropsEuler PropsBalance.
Import ListNotations.
Open Scope R_scope.

Lemma dist_zero q : dist q q = 0.
Proof. unfold dist. replace ((vx q - vx q) ^ 2 + (vy q - vy q) ^ 2) with 0 by ring. apply sqrt_0. Qed.

Section Abstract.
Context (A : list (vec * R * vec)) (ends X : list vec) (off : vec -> Prop) (D0 : vec -> R).

(** near q the function [D0], where it is defined, is the turning of pieces that avoid q and have the same loose ends as [A], less z whole turns *)
Definition datum (q : vec) (A' : list (vec * R * vec)) (z : Z) (de : R) : Prop :=
  okT A' /\ (forall x, netT A' x = netT A x) /\ (forall e, In e A' -> In (fst (fst e)) ends /\ In (snd e) ends) /\ offT A' q /\ 0 < de /\
  forall q', dist q q' < de -> off q' -> D0 q' = turnT q' A' - 2 * PI * IZR z.

Hypothesis HD : forall q, ~ In q X -> exists A' z de, datum q A' z de.
Hypothesis Dense : forall q e, ~ In q X -> 0 < e -> exists q', dist q q' < e /\ off q'.

Definition Dq (q : vec) : R := real (Lub_Rbar (fun v => exists A' z de, datum q A' z de /\ v = turnT q A' - 2 * PI * IZR z)).

Lemma datum_same q A1 z1 d1 A2 z2 d2 : ~ In q X -> datum q A1 z1 d1 -> datum q A2 z2 d2 -> turnT q A1 - 2 * PI * IZR z1 = turnT q A2 - 2 * PI * IZR z2.
Proof.
  intros NX (K1 & _ & _ & O1 & H1 & V1) (K2 & _ & _ & O2 & H2 & V2). apply Rminus_diag_uniq. apply NNPP. intros NZ.
  set (dl := turnT q A1 - 2 * PI * IZR z1 - (turnT q A2 - 2 * PI * IZR z2)) in *. pose proof (Rabs_pos_lt _ NZ) as Hp.
  destruct (turnT_local A1 q K1 O1 (Rabs dl / 4) ltac:(lra)) as (e1 & He1 & L1). destruct (turnT_local A2 q K2 O2 (Rabs dl / 4) ltac:(lra)) as (e2 & He2 & L2).
  destruct (Dense q (Rmin (Rmin d1 d2) (Rmin e1 e2)) NX) as (q' & Hq & Off); [repeat apply Rmin_glb_lt; auto|].
  pose proof (Rmin_l (Rmin d1 d2) (Rmin e1 e2)). pose proof (Rmin_r (Rmin d1 d2) (Rmin e1 e2)). pose proof (Rmin_l d1 d2). pose proof (Rmin_r d1 d2). pose proof (Rmin_l e1 e2). pose proof (Rmin_r e1 e2).
  pose proof (V1 q' ltac:(lra) Off) as E1. pose proof (V2 q' ltac:(lra) Off) as E2. destruct (L1 q' ltac:(lra)) as [_ B1]. destruct (L2 q' ltac:(lra)) as [_ B2].
  assert (Rabs dl <= Rabs dl / 2); [|lra]. unfold dl at 1.
  replace (turnT q A1 - 2 * PI * IZR z1 - (turnT q A2 - 2 * PI * IZR z2)) with ((turnT q' A2 - turnT q A2) - (turnT q' A1 - turnT q A1)) by lra.
  eapply Rle_trans; [apply Rabs_triang|]. rewrite Rabs_Ropp. lra.
Qed.

Lemma Dq_val q A' z de : ~ In q X -> datum q A' z de -> Dq q = turnT q A' - 2 * PI * IZR z.
Proof.
  intros NX D. unfold Dq. rewrite (is_lub_Rbar_unique _ (Finite (turnT q A' - 2 * PI * IZR z))); [reflexivity|]. split.
  - intros v (A2 & z2 & d2 & D2 & ->). cbn. right. exact (datum_same _ _ _ _ _ _ _ NX D2 D).
  - intros b Hb. apply Hb. exists A', z, de. auto.
Qed.

Lemma clearX q : ~ In q X -> exists e, 0 < e /\ forall q', dist q q' < e -> ~ In q' X.
Proof.
  intros NX. destruct (clearance q X) as (r & Hr & Hf). exists r. split; [auto|]. intros q' Hq Hin. assert (N : q' <> q) by (intros ->; contradiction). specialize (Hf q' Hin N). lra.
Qed.

Lemma D_local q : ~ In q X -> exists A' z de, datum q A' z de /\ forall q', dist q q' < de -> Dq q' = turnT q' A' - 2 * PI * IZR z.
Proof.
  intros NX. destruct (HD q NX) as (A' & z & de & D). pose proof D as (K1 & N1 & E1 & O1 & H1 & V1). destruct (clearX q NX) as (e & He & NXe).
  destruct (turnT_local A' q K1 O1 1 ltac:(lra)) as (e1 & He1 & L1). set (m := Rmin de (Rmin e e1)).
  assert (M : 0 < m /\ m <= de /\ m <= e /\ m <= e1). { unfold m. pose proof (Rmin_l de (Rmin e e1)). pose proof (Rmin_r de (Rmin e e1)). pose proof (Rmin_l e e1). pose proof (Rmin_r e e1). split; [repeat apply Rmin_glb_lt; auto|lra]. }
  exists A', z, m. split; [repeat split; auto; try apply E1; auto; try apply M; intros q' Hq' Of; apply V1; auto; lra|].
  intros q' Hq. apply (Dq_val q' A' z (de - dist q q')); [apply NXe; lra|]. destruct (L1 q' ltac:(lra)) as [Oq _].
  repeat split; auto; try (now apply E1); [lra|]. intros q2 Hq2 Of. apply V1; auto. pose proof (dist_tri q q' q2). lra.
Qed.

Lemma D_cont q : ~ In q X -> forall e, 0 < e -> exists de, 0 < de /\ forall q', dist q q' < de -> Rabs (Dq q' - Dq q) <= e.
Proof.
  intros NX e He. destruct (D_local q NX) as (A' & z & de & (K1 & _ & _ & O1 & H1 & _) & V). destruct (turnT_local A' q K1 O1 e He) as (d2 & Hd2 & H2).
  exists (Rmin de d2). split; [now apply Rmin_glb_lt|]. intros q' Hq. rewrite (V q'), (V q); [|rewrite dist_zero; lra|eapply Rlt_le_trans; [exact Hq|apply Rmin_l]].
  destruct (H2 q') as [_ B2]; [eapply Rlt_le_trans; [exact Hq|apply Rmin_r]|].
  match goal with |- Rabs (?a - ?x - (?b - ?x)) <= _ => replace (a - x - (b - x)) with (a - b) by ring end. exact B2.
Qed.

Lemma D_cong (M : list vec) q : NoDup M -> (forall x, In x ends -> In x M) -> ~ In q X -> congruent (- sumR (map (fun x => netT A x * angU q x) M)) (Dq q).
Proof.
  intros Nd HM NX. destruct (D_local q NX) as (A' & z & de & (K1 & N1 & E1 & O1 & H1 & _) & V). rewrite (V q) by (rewrite dist_zero; lra).
  destruct (turnT_cong M A' q Nd (fun e He => conj (HM _ (proj1 (E1 e He))) (HM _ (proj2 (E1 e He)))) K1 O1) as (k & Ek). exists (k - z)%Z. rewrite Ek, minus_IZR.
  rewrite (sum_ext (fun x => netT A x * angU q x) (fun x => netT A' x * angU q x)) by (intros x _; now rewrite N1). ring.
Qed.

(** no loose ends *)
Theorem no_loose_ends x0 : netT A x0 = 0.
Proof.
  set (L0 := filter (fun x => if veq_dec x x0 then false else true) (nodup veq_dec ends)).
  assert (H0 : forall x, In x L0 <-> In x ends /\ x <> x0). { intros x. unfold L0. rewrite filter_In, nodup_In. destruct (veq_dec x x0); split; intros [Q1 Q2]; split; auto; congruence. }
  assert (Nd : NoDup (x0 :: L0)). { constructor; [rewrite H0; tauto|apply NoDup_filter, NoDup_nodup]. }
  assert (HM : forall x, In x ends -> In x (x0 :: L0)). { intros x Hx. destruct (veq_dec x x0) as [->|Ne]; [now left|right; now apply H0]. }
  destruct (clearance x0 (L0 ++ X)) as (r & Hr & Hfar).
  destruct (outside_angles x0 r (netT A) L0 Hr) as (lam & Cl & El & Pl); [intros x Hx; apply Hfar; [apply in_or_app; now left|now apply H0 in Hx]|apply netT_int|].
  assert (NC : forall th, ~ In (onCircle x0 r th) X).
  { intros th Hin. pose proof (onCircle_dist x0 r th ltac:(lra)) as E. assert (Ne : onCircle x0 r th <> x0) by (intros Q; rewrite Q, dist_zero in E; lra).
    specialize (Hfar _ (in_or_app L0 X _ (or_intror Hin)) Ne). lra. }
  set (f := fun th => Dq (onCircle x0 r th) + (lam th + netT A x0 * (th + PI))).
  assert (Cf : forall th, continuity_pt f th).
  { intros th. unfold f. apply (continuity_pt_plus (fun th => Dq (onCircle x0 r th)) (fun th => lam th + netT A x0 * (th + PI))).
    - apply along_continuous; [| |apply D_cont, NC]; unfold onCircle; cbn [vx vy]; apply (ex_derive_continuous (V := R_NormedModule)); auto_derive; auto.
    - apply (continuity_pt_plus lam (fun th => netT A x0 * (th + PI))); [apply Cl|]. apply derivable_continuous_pt. reg. }
  assert (Lf : forall th, exists k : Z, f th = 2 * PI * IZR k).
  { intros th. pose proof (D_cong (x0 :: L0) _ Nd HM (NC th)) as (k & Ek). cbn [map] in Ek. rewrite sumR_cons in Ek. destruct (El th) as (k2 & Ek2). destruct (netT_int A x0) as (z & Ez).
    destruct (congruent_scal z _ _ (centre_angle x0 r th Hr)) as (k3 & Ek3). rewrite <- Ez in Ek3. exists (k + k2 + k3)%Z. unfold f. rewrite Ek, Ek2, Ek3, !plus_IZR. ring. }
  pose proof (lattice_const f 0 (2 * PI) Cf Lf) as E. unfold f in E. assert (Ec : onCircle x0 r (2 * PI) = onCircle x0 r 0) by (unfold onCircle; now rewrite cos_2PI, cos_0, sin_2PI, sin_0). rewrite Ec, Pl in E.
  pose proof PI_RGT_0. assert (netT A x0 * (2 * PI) = 0) as Q by lra. apply Rmult_integral in Q. destruct Q; [auto|lra].
Qed.

(** the function has the same value everywhere *)
Theorem same_everywhere zinf q : okT A -> (exists B, forall q', B < dist (mkV 0 0) q' -> off q' /\ D0 q' = turnT q' A - 2 * PI * IZR zinf) -> ~ In q X -> off q -> D0 q = - (2 * PI * IZR zinf).
Proof.
  intros KA (B0 & HB) NX Oq.
  destruct (fresh (map (fun x => (vy x - vy q) / (vx x - vx q)) X)) as (s & Hs). set (g := fun t => mkV (vx q + t) (vy q + t * s)).
  assert (Eg : g 0 = q) by (unfold g; apply vec_eq; cbn [vx vy]; lra).
  assert (NC : forall t, ~ In (g t) X).
  { intros t Hin. destruct (Req_dec t 0) as [->|Nt]; [rewrite Eg in Hin; exact (NX Hin)|]. apply Hs. apply in_map_iff. exists (g t). split; [|auto]. unfold g. cbn [vx vy]. field. lra. }
  assert (Cf : forall t, continuity_pt (fun t => Dq (g t)) t).
  { intros t. apply along_continuous; [| |apply D_cont, NC]; unfold g; cbn [vx vy]; apply (ex_derive_continuous (V := R_NormedModule)); auto_derive; auto. }
  assert (Lf : forall t, exists k : Z, Dq (g t) = 2 * PI * IZR k).
  { intros t. destruct (D_cong (nodup veq_dec ends) (g t) (NoDup_nodup _ _) (fun x Hx => proj2 (nodup_In _ _ _) Hx) (NC t)) as (k & Ek). exists k. rewrite Ek.
    rewrite (sum_zero (fun x => netT A x * angU (g t) x)) by (intros x _; rewrite no_loose_ends; ring). ring. }
  assert (At : forall q', ~ In q' X -> off q' -> Dq q' = D0 q').
  { intros q' N' O'. destruct (D_local q' N') as (A' & z & de & (_ & _ & _ & _ & Hde & V) & V'). rewrite V' by (rewrite dist_zero; lra). symmetry. apply V; [rewrite dist_zero; lra|auto]. }
  destruct (turnT_far A KA 1 ltac:(lra)) as (B3 & P3 & Z3). set (B1 := Rmax 0 B0).
  assert (HB1 : 0 <= B1 /\ B0 <= B1) by (unfold B1; split; [apply Rmax_l|apply Rmax_r]).
  set (t := Rabs (vx q) + B1 + B3 + 1).
  assert (Hfar : Rmax B1 B3 < dist (mkV 0 0) (g t)).
  { apply Rlt_le_trans with (Rabs (vx (g t))).
    - unfold g. cbn [vx]. unfold t. pose proof (Rabs_pos (vx q)). pose proof (Rle_abs (- vx q)) as Q. rewrite Rabs_Ropp in Q. rewrite Rabs_right by lra. apply Rmax_lub_lt; lra.
    - unfold dist. cbn [vx vy]. rewrite <- sqrt_Rsqr_abs. apply sqrt_le_1_alt. unfold Rsqr. pose proof (Rle_0_sqr (vy (g t))) as Q. unfold Rsqr in Q. nra. }
  destruct (HB (g t)) as [Ot Et]; [pose proof (Rmax_l B1 B3); lra|].
  assert (Z3' : Rabs (turnT (g t) A) <= 1) by (apply Z3; eapply Rle_lt_trans; [apply Rmax_r|exact Hfar]).
  assert (Dt : Dq (g t) = - (2 * PI * IZR zinf)).
  { destruct (Lf t) as (k & Ek). rewrite (At _ (NC t) Ot), Et in *. assert (Ez : turnT (g t) A = 2 * PI * IZR (k + zinf)) by (rewrite plus_IZR; lra).
    rewrite Ez in Z3' |- *. replace (k + zinf)%Z with 0%Z; [ring|]. symmetry. apply IZR_close.
    replace (2 * PI * IZR (k + zinf) - 2 * PI * 0) with (2 * PI * IZR (k + zinf)) by ring. exact Z3'. }
  pose proof (lattice_const (fun t => Dq (g t)) 0 t Cf Lf) as E. cbn beta in E. rewrite Dt, Eg in E. rewrite <- (At q NX Oq). lra.
Qed.
End Abstract.
