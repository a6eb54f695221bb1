(** * C47: the winding number is constant along paths that avoid the polyline, and 0 far away and outside the extents *)
From Coq Require Import ZArith Reals Lra Lia List Bool Arith Permutation.
From Coquelicot Require Import Coquelicot.
From Verif Require Import Base Num MathUtils PlineSegment SpatialIndex Polyline RGeom Spec PropsMath ArcGeom Polar PropsSegment PropsClosest PropsIntr PropsPlineIntr PropsPolyline PropsArea Turning PropsWinding PropsExtents.
Import ListNotations.
Open Scope R_scope.

(** ** Specification *)
(** [q] lies on the polyline *)
Definition onPath (pl : polyline) (q : vec) : Prop := exists v1 v2, In (v1, v2) (pathSegs pl) /\ onSeg v1 v2 q.

(** a continuous path from p to q: both coordinates continuous on [0, 1] *)
Definition isPathFrom (p q : vec) (g : R -> vec) : Prop :=
  g 0 = p /\ g 1 = q /\ forall t, 0 <= t <= 1 -> continuous (fun u => vx (g u)) t /\ continuous (fun u => vy (g u)) t.

(** p and q can be joined without touching the polyline *)
Definition joinable (pl : polyline) (p q : vec) : Prop := exists g, isPathFrom p q g /\ forall t, 0 <= t <= 1 -> ~ onPath pl (g t).

Definition smallBulges (pl : polyline) : Prop := List.Forall (fun v => Rabs (bulge v) <= 1) (vertexes pl).

(** ** Segments as paths *)
Definition segPath (v1 v2 : vertex) (t : R) : vec :=
  if Rlt_dec (Rabs (bulge v1)) (1 / 100000) then lerp (pos v1) (pos v2) t else rot (ctr (pos v1) (pos v2) (bulge v1)) (t * sweep (bulge v1)) (pos v1).

Lemma segPath_ok v1 v2 t : segPoint v1 v2 t (segPath v1 v2 t).
Proof.
  unfold segPath. destruct (Rlt_dec _ _) as [Hl|Hl]; [apply (segPoint_line v1 v2 _ _ Hl); reflexivity|apply (segPoint_arc v1 v2 _ _ Hl); reflexivity].
Qed.

Lemma segPath_unique v1 v2 t q : segPoint v1 v2 t q -> q = segPath v1 v2 t.
Proof.
  unfold segPath. destruct (Rlt_dec _ _) as [Hl|Hl]; intros H; [apply (segPoint_line v1 v2 _ _ Hl)|apply (segPoint_arc v1 v2 _ _ Hl)]; exact H.
Qed.

Lemma onSeg_path v1 v2 q : onSeg v1 v2 q <-> exists t, 0 <= t <= 1 /\ q = segPath v1 v2 t.
Proof.
  split; intros (t & Ht & H); exists t; (split; [auto|]); [now apply segPath_unique|subst; apply segPath_ok].
Qed.

Definition toC (p q : vec) : C := (vx q - vx p, vy q - vy p).

Lemma Cmod_dist p q : Cmod (toC p q) = dist p q.
Proof. unfold Cmod, toC, dist. cbn [fst snd]. f_equal. ring. Qed.

Lemma dist_tri p q r : dist p r <= dist p q + dist q r.
Proof. rewrite <- !Cmod_dist. replace (toC p r) with (toC p q + toC q r)%C. apply Cmod_triangle. unfold toC, Cplus. cbn [fst snd]. f_equal; ring. Qed.

Lemma dist_sym' p q : dist p q = dist q p.
Proof. unfold dist. f_equal. ring. Qed.

Lemma dist_pos p q : p <> q -> 0 < dist p q.
Proof. intros N. rewrite <- Cmod_dist. apply Cmod_gt_0. intros E. apply N. unfold toC in E. injection E as E1 E2. apply vec_eq; rcbn; lra. Qed.

Lemma dist_0 p q : dist p q = 0 -> p = q.
Proof. intros H. destruct (vec_dec p q) as [E|N]; [auto|]. apply dist_pos in N. lra. Qed.

Lemma Im_le_Cmod z : Rabs (Im z) <= Cmod z.
Proof.
  unfold Cmod, Im. rewrite <- sqrt_Rsqr_abs. apply sqrt_le_1_alt. unfold Rsqr. pose proof (Rle_0_sqr (fst z)). unfold Rsqr in *. cbn. nra.
Qed.

(** velocity *)
Definition vel (P : R -> vec) (t : R) : C := (Derive (fun u => vx (P u)) t, Derive (fun u => vy (P u)) t).

Lemma angSpeed_Im p P t : P t <> p -> angSpeed p P t = Im (vel P t / toC p (P t))%C.
Proof.
  intros N. unfold angSpeed, vel, toC, Cdiv, Cinv, Cmult, Im. cbn [fst snd].
  assert (0 < (vx (P t) - vx p) ^ 2 + (vy (P t) - vy p) ^ 2).
  { assert (0 < dist p (P t)) as D by (apply dist_pos; auto). unfold dist in D. apply Rnot_le_lt. intros L. rewrite sqrt_neg_0 in D; [lra|]. 
    replace ((vx p - vx (P t)) ^ 2 + (vy p - vy (P t)) ^ 2) with ((vx (P t) - vx p) ^ 2 + (vy (P t) - vy p) ^ 2) by ring. exact L. }
  field. lra.
Qed.

Lemma toC_ne p q : q <> p -> toC p q <> 0%C.
Proof. intros N E. apply N. unfold toC in E. injection E as E1 E2. apply vec_eq; rcbn; lra. Qed.

(** how much the angular speed depends on the view point *)
Lemma speed_diff p q P t : P t <> p -> P t <> q ->
  Rabs (angSpeed q P t - angSpeed p P t) <= Cmod (vel P t) * dist p q / (dist p (P t) * dist q (P t)).
Proof.
  intros N1 N2. rewrite !angSpeed_Im by auto. set (z' := vel P t). set (z := toC p (P t)). set (w := toC q (P t)).
  assert (Nz : z <> 0%C) by (apply toC_ne; auto). assert (Nw : w <> 0%C) by (apply toC_ne; auto).
  replace (Im (z' / w)%C - Im (z' / z)%C) with (Im (z' / w - z' / z)%C) by (unfold Im, Cminus, Cplus, Copp; cbn [fst snd]; ring).
  replace (z' / w - z' / z)%C with (z' * toC p q / (z * w))%C.
  2:{ replace (toC p q) with (z - w)%C. field. auto. unfold z, w, toC, Cminus, Cplus, Copp. cbn [fst snd]. f_equal; ring. }
  eapply Rle_trans; [apply Im_le_Cmod|]. rewrite Cmod_div, !Cmod_mult. 2:{ apply Cmult_neq_0; auto. }
  unfold z, w. rewrite !Cmod_dist. lra.
Qed.

Lemma speed_bound p P t : P t <> p -> Rabs (angSpeed p P t) <= Cmod (vel P t) / dist p (P t).
Proof.
  intros N. rewrite angSpeed_Im by auto. eapply Rle_trans; [apply Im_le_Cmod|]. rewrite Cmod_div by (apply toC_ne; auto). rewrite Cmod_dist. lra.
Qed.

(** the speed of a segment is bounded *)
Lemma seg_speed v1 v2 : exists S, 0 < S /\ forall t, Cmod (vel (segPath v1 v2) t) <= S.
Proof.
  unfold segPath. destruct (Rlt_dec _ _) as [Hl|Hl].
  - exists (dist (pos v1) (pos v2) + 1). split; [unfold dist; pose proof (sqrt_pos ((vx (pos v1) - vx (pos v2)) ^ 2 + (vy (pos v1) - vy (pos v2)) ^ 2)); lra|].
    intros t. unfold vel. rewrite (is_derive_unique (fun u => vx (lerp _ _ u)) t (vx (pos v2) - vx (pos v1))), (is_derive_unique (fun u => vy (lerp _ _ u)) t (vy (pos v2) - vy (pos v1))).
    + change (Cmod (toC (pos v1) (pos v2)) <= dist (pos v1) (pos v2) + 1). rewrite Cmod_dist. lra.
    + unfold lerp. cbn [vy]. auto_derive; auto. rring.
    + unfold lerp. cbn [vx]. auto_derive; auto. rring.
  - set (c := ctr _ _ _). set (th := sweep _). exists (Rabs th * dist c (pos v1) + 1).
    split. { pose proof (Rabs_pos th). unfold dist. pose proof (sqrt_pos ((vx c - vx (pos v1)) ^ 2 + (vy c - vy (pos v1)) ^ 2)). nra. }
    intros t. unfold vel. erewrite (is_derive_unique (fun u => vx (rot _ _ _))) by apply arc_dX. erewrite (is_derive_unique (fun u => vy (rot _ _ _))) by apply arc_dY.
    set (q := rot c (t * th) (pos v1)).
    replace (_, _) with (RtoC th * (Ci * toC c q))%C.
    2:{ unfold RtoC, Ci, toC, Cmult. cbn [fst snd]. f_equal; ring. }
    rewrite !Cmod_mult, Cmod_R, Cmod_dist. replace (Cmod Ci) with 1.
    2:{ unfold Cmod, Ci. cbn [fst snd]. replace (0 ^ 2 + 1 ^ 2) with 1 by ring. symmetry. apply sqrt_1. }
    replace (dist c q) with (dist c (pos v1)); [lra|]. unfold dist. f_equal. pose proof (sq2_rot c (t * th) (pos v1)) as E. fold q in E. unfold sq2 in E. nra.
Qed.

Lemma seg_continuous v1 v2 t : continuous (fun u => vx (segPath v1 v2 u)) t /\ continuous (fun u => vy (segPath v1 v2 u)) t.
Proof.
  destruct (seg_smooth v1 v2 (segPath v1 v2) (segPath_ok v1 v2)) as [DX DY]. split; [apply (ex_derive_continuous (fun u => vx (segPath v1 v2 u))), DX|apply (ex_derive_continuous (fun u => vy (segPath v1 v2 u))), DY].
Qed.

Lemma seg_dist_continuous v1 v2 p t : continuous (fun u => dist p (segPath v1 v2 u)) t.
Proof.
  destruct (seg_continuous v1 v2 t) as [CX CY]. unfold dist.
  apply (continuous_comp (fun u => (vx p - vx (segPath v1 v2 u)) ^ 2 + (vy p - vy (segPath v1 v2 u)) ^ 2) sqrt); [|apply continuous_sqrt].
  assert (Q : forall (f : R -> R) a, continuous f t -> continuous (fun u => (a - f u) ^ 2) t).
  { intros f a Hf. apply continuous_ext with (fun u => mult (minus a (f u)) (minus a (f u))). { intros u. unfold mult, minus, plus, opp. cbn. ring. }
    apply (continuous_mult (K := R_AbsRing)); apply (continuous_minus (V := R_NormedModule)); auto; apply continuous_const. }
  apply (continuous_plus (V := R_NormedModule)); apply Q; auto.
Qed.

(** a point off the segment has a positive distance to it *)
Lemma seg_away v1 v2 p : ~ onSeg v1 v2 p -> exists d, 0 < d /\ forall t, 0 <= t <= 1 -> d <= dist p (segPath v1 v2 t).
Proof.
  intros Hoff. destruct (continuity_ab_min (fun u => dist p (segPath v1 v2 u)) 0 1) as (t0 & Hmin & Ht0); [lra| |].
  { intros c _. apply continuity_pt_filterlim. apply seg_dist_continuous. }
  exists (dist p (segPath v1 v2 t0)). split; [|auto]. apply dist_pos. intros E. apply Hoff. apply onSeg_path. exists t0. auto.
Qed.

Lemma seg_bounded v1 v2 : exists B, 0 < B /\ forall t, 0 <= t <= 1 -> dist (mkV 0 0) (segPath v1 v2 t) <= B.
Proof.
  destruct (continuity_ab_maj (fun u => dist (mkV 0 0) (segPath v1 v2 u)) 0 1) as (t0 & Hmax & Ht0); [lra| |].
  { intros c _. apply continuity_pt_filterlim. apply seg_dist_continuous. }
  exists (dist (mkV 0 0) (segPath v1 v2 t0) + 1). split; [unfold dist; match goal with |- context [sqrt ?x] => pose proof (sqrt_pos x) end; lra|]. intros t Ht. specialize (Hmax t Ht). cbn beta in Hmax. lra.
Qed.

Lemma dist_nonneg p q : 0 <= dist p q.
Proof. apply sqrt_pos. Qed.

(** ** The total turning *)
Definition turnSum (l : list (vertex * vertex)) (p : vec) : R := fold_right Rplus 0 (map (fun e => RInt (angSpeed p (segPath (fst e) (snd e))) 0 1) l).

Lemma seg_int v1 v2 p : Rabs (bulge v1) <= 1 -> ~ onSeg v1 v2 p -> is_RInt (angSpeed p (segPath v1 v2)) 0 1 (RInt (angSpeed p (segPath v1 v2)) 0 1).
Proof. intros Hb Hoff. apply (RInt_correct (V := R_CompleteNormedModule)). eexists. exact (seg_turn v1 v2 p (segPath v1 v2) Hb (segPath_ok v1 v2) Hoff). Qed.

Lemma seg_local v1 v2 p e : Rabs (bulge v1) <= 1 -> ~ onSeg v1 v2 p -> 0 < e -> exists d, 0 < d /\ forall q, dist p q < d ->
  ~ onSeg v1 v2 q /\ Rabs (RInt (angSpeed q (segPath v1 v2)) 0 1 - RInt (angSpeed p (segPath v1 v2)) 0 1) <= e.
Proof.
  intros Hb Hoff He. destruct (seg_away v1 v2 p Hoff) as (d & Hd & Haway). destruct (seg_speed v1 v2) as (S & HS & Hspeed).
  exists (Rmin (d / 2) (e * (d * d) / (2 * S))). split. { apply Rmin_glb_lt; [lra|]. apply Rdiv_lt_0_compat; [|lra]. apply Rmult_lt_0_compat; [auto|]. apply Rmult_lt_0_compat; auto. }
  intros q Hq. assert (Hq1 : dist p q < d / 2) by (eapply Rlt_le_trans; [exact Hq|apply Rmin_l]). assert (Hq2 : dist p q < e * (d * d) / (2 * S)) by (eapply Rlt_le_trans; [exact Hq|apply Rmin_r]).
  assert (Hfar : forall t, 0 <= t <= 1 -> d / 2 <= dist q (segPath v1 v2 t)).
  { intros t Ht. specialize (Haway t Ht). pose proof (dist_tri p q (segPath v1 v2 t)). lra. }
  assert (Hoffq : ~ onSeg v1 v2 q).
  { intros O. apply onSeg_path in O. destruct O as (t & Ht & E). specialize (Hfar t Ht). rewrite <- E in Hfar. replace (dist q q) with 0 in Hfar; [lra|]. unfold dist. replace ((vx q - vx q) ^ 2 + (vy q - vy q) ^ 2) with 0 by ring. now rewrite sqrt_0. }
  split; [auto|].
  pose proof (is_RInt_minus _ _ _ _ _ _ (seg_int v1 v2 q Hb Hoffq) (seg_int v1 v2 p Hb Hoff)) as HI.
  pose proof (fun M H => norm_RInt_le_const _ 0 1 _ M ltac:(lra) H HI) as HN. specialize (HN e).
  unfold norm, minus, plus, opp in HN. cbn in HN. unfold abs in HN. cbn in HN. unfold Rminus. eapply Rle_trans; [apply HN|lra].
  intros t Ht. assert (Np : segPath v1 v2 t <> p). { intros E. specialize (Haway t Ht). rewrite E in Haway. replace (dist p p) with 0 in Haway; [lra|]. unfold dist. replace ((vx p - vx p) ^ 2 + (vy p - vy p) ^ 2) with 0 by ring. now rewrite sqrt_0. }
  assert (Nq : segPath v1 v2 t <> q). { intros E. apply Hoffq. apply onSeg_path. exists t. auto. }
  eapply Rle_trans; [exact (speed_diff p q _ t Np Nq)|]. specialize (Haway t Ht). specialize (Hfar t Ht). specialize (Hspeed t).
  set (a := dist p (segPath v1 v2 t)) in *. set (b := dist q (segPath v1 v2 t)) in *. set (k := Cmod _) in *. set (x := dist p q) in *. pose proof (dist_nonneg p q) as Hx. fold x in Hx.
  apply Rmult_le_reg_r with (a * b); [nra|]. unfold Rdiv. rewrite Rmult_assoc, Rinv_l by nra. rewrite Rmult_1_r.
  assert (k * x <= S * x) by (apply Rmult_le_compat_r; auto).
  assert (S * x <= e * (d * d) / 2). { apply Rmult_lt_compat_l with (r := S) in Hq2; [|auto]. replace (S * (e * (d * d) / (2 * S))) with (e * (d * d) / 2) in Hq2 by (field; lra). lra. }
  assert (d * (d / 2) <= a * b) by (apply Rmult_le_compat; lra).
  assert (e * (d * (d / 2)) <= e * (a * b)) by (apply Rmult_le_compat_l; lra). lra.
Qed.

Lemma sum_local l p : (forall v1 v2, In (v1, v2) l -> Rabs (bulge v1) <= 1 /\ ~ onSeg v1 v2 p) -> forall e, 0 < e -> exists d, 0 < d /\ forall q, dist p q < d ->
  (forall v1 v2, In (v1, v2) l -> ~ onSeg v1 v2 q) /\ Rabs (turnSum l q - turnSum l p) <= e.
Proof.
  induction l as [|[v1 v2] l IH]; intros H e He.
  - exists 1. split; [lra|]. intros q _. split; [intros ? ? []|]. unfold turnSum. cbn [map fold_right]. rewrite Rminus_0_r, Rabs_R0. lra.
  - destruct (IH (fun a b Hin => H a b (or_intror Hin)) (e / 2) ltac:(lra)) as (d1 & Hd1 & H1). destruct (H v1 v2 (or_introl eq_refl)) as [Hb Hoff].
    destruct (seg_local v1 v2 p (e / 2) Hb Hoff ltac:(lra)) as (d2 & Hd2 & H2). exists (Rmin d1 d2). split; [apply Rmin_glb_lt; auto|]. intros q Hq.
    destruct (H1 q) as [O1 B1]; [eapply Rlt_le_trans; [exact Hq|apply Rmin_l]|]. destruct (H2 q) as [O2 B2]; [eapply Rlt_le_trans; [exact Hq|apply Rmin_r]|]. split.
    + intros a b [E|Hin]; [injection E as <- <-; auto|auto].
    + change (Rabs (RInt (angSpeed q (segPath v1 v2)) 0 1 + turnSum l q - (RInt (angSpeed p (segPath v1 v2)) 0 1 + turnSum l p)) <= e).
      match goal with |- Rabs (?x + ?u - (?y + ?w)) <= _ => replace (x + u - (y + w)) with ((x - y) + (u - w)) by ring end. eapply Rle_trans; [apply Rabs_triang|]. lra.
Qed.

Lemma seg_far v1 v2 e : Rabs (bulge v1) <= 1 -> 0 < e -> exists B, 0 < B /\ forall q, B < dist (mkV 0 0) q ->
  ~ onSeg v1 v2 q /\ Rabs (RInt (angSpeed q (segPath v1 v2)) 0 1) <= e.
Proof.
  intros Hb He. destruct (seg_bounded v1 v2) as (B & HB & Hbd). destruct (seg_speed v1 v2) as (S & HS & Hspeed).
  assert (HSe : 0 < S / e) by (apply Rdiv_lt_0_compat; auto). exists (B + S / e). split; [lra|].
  intros q Hq.
  assert (Hfar : forall t, 0 <= t <= 1 -> S / e <= dist q (segPath v1 v2 t)).
  { intros t Ht. specialize (Hbd t Ht). pose proof (dist_tri (mkV 0 0) (segPath v1 v2 t) q). rewrite (dist_sym' (segPath v1 v2 t) q) in H. lra. }
  assert (Hoffq : ~ onSeg v1 v2 q).
  { intros O. apply onSeg_path in O. destruct O as (t & Ht & E). specialize (Hfar t Ht). rewrite <- E in Hfar. replace (dist q q) with 0 in Hfar; [lra|]. unfold dist. replace ((vx q - vx q) ^ 2 + (vy q - vy q) ^ 2) with 0 by ring. now rewrite sqrt_0. }
  split; [auto|]. pose proof (seg_int v1 v2 q Hb Hoffq) as HI. pose proof (fun M H => norm_RInt_le_const _ 0 1 _ M ltac:(lra) H HI) as HN. specialize (HN e).
  unfold norm in HN. cbn in HN. unfold abs in HN. cbn in HN. eapply Rle_trans; [apply HN|lra].
  intros t Ht. assert (Nq : segPath v1 v2 t <> q). { intros E. apply Hoffq. apply onSeg_path. exists t. auto. }
  eapply Rle_trans; [exact (speed_bound q _ t Nq)|]. specialize (Hfar t Ht). specialize (Hspeed t). set (b := dist q (segPath v1 v2 t)) in *.
  apply Rmult_le_reg_r with b; [lra|]. unfold Rdiv. rewrite Rmult_assoc, Rinv_l by lra. rewrite Rmult_1_r.
  apply Rmult_le_compat_l with (r := e) in Hfar; [|lra]. replace (e * (S / e)) with S in Hfar by (field; lra). lra.
Qed.

Lemma sum_far l : (forall v1 v2, In (v1, v2) l -> Rabs (bulge v1) <= 1) -> forall e, 0 < e -> exists B, 0 < B /\ forall q, B < dist (mkV 0 0) q ->
  (forall v1 v2, In (v1, v2) l -> ~ onSeg v1 v2 q) /\ Rabs (turnSum l q) <= e.
Proof.
  induction l as [|[v1 v2] l IH]; intros H e He.
  - exists 1. split; [lra|]. intros q _. split; [intros ? ? []|]. unfold turnSum. cbn [map fold_right]. rewrite Rabs_R0. lra.
  - destruct (IH (fun a b Hin => H a b (or_intror Hin)) (e / 2) ltac:(lra)) as (d1 & Hd1 & H1).
    destruct (seg_far v1 v2 (e / 2) (H _ _ (or_introl eq_refl)) ltac:(lra)) as (d2 & Hd2 & H2). exists (Rmax d1 d2). split; [eapply Rlt_le_trans; [exact Hd1|apply Rmax_l]|]. intros q Hq.
    destruct (H1 q) as [O1 B1]; [eapply Rle_lt_trans; [apply Rmax_l|exact Hq]|]. destruct (H2 q) as [O2 B2]; [eapply Rle_lt_trans; [apply Rmax_r|exact Hq]|]. split.
    + intros a b [E|Hin]; [injection E as <- <-; auto|auto].
    + change (Rabs (RInt (angSpeed q (segPath v1 v2)) 0 1 + turnSum l q) <= e). eapply Rle_trans; [apply Rabs_triang|]. lra.
Qed.

Lemma seg_start_small pl v1 v2 : smallBulges pl -> In (v1, v2) (pathSegs pl) -> Rabs (bulge v1) <= 1.
Proof.
  intros Hb He. pose proof (Permutation_in _ (Permutation_sym (vsegs_perm pl)) He) as Hv.
  unfold vsegs in Hv. apply in_map_iff in Hv. destruct Hv as ([i j] & E & Hi). cbn [fst snd] in E. injection E as <- <-.
  apply C21_indices in Hi. unfold smallBulges in Hb. rewrite List.Forall_forall in Hb. apply Hb. apply nth_In. lia.
Qed.

Lemma turnSum_winding pl p : isClosed pl = true -> smallBulges pl -> ~ onPath pl p -> turnSum (pathSegs pl) p = 2 * PI * IZR (getWindingNumber pl p).
Proof.
  intros Hc Hb Hoff. apply (C24_winding_number pl p (fun v1 v2 => segPath v1 v2)); auto.
  - intros v1 v2 t _. apply segPath_ok.
  - intros v1 v2 Hin O. apply Hoff. exists v1, v2. auto.
Qed.

Lemma IZR_close a b : Rabs (2 * PI * IZR a - 2 * PI * IZR b) <= 1 -> a = b.
Proof.
  intros H. pose proof PI_RGT_0. pose proof PI2_3_2 as P. unfold PI2 in P.
  assert (-1 < IZR a - IZR b < 1) as [L U]. { unfold Rabs in H. destruct (Rcase_abs _) in H; split; nra. }
  rewrite <- minus_IZR in L, U. assert (-1 < a - b)%Z by (apply lt_IZR; lra). assert (a - b < 1)%Z by (apply lt_IZR; lra). lia.
Qed.

(** ** C47 *)
(** the points near a point off the polyline have the same winding number *)
Theorem C47_locally_constant pl p : smallBulges pl -> ~ onPath pl p ->
  exists d, 0 < d /\ forall q, dist p q < d -> ~ onPath pl q /\ getWindingNumber pl q = getWindingNumber pl p.
Proof.
  intros Hb Hoff. destruct (sum_local (pathSegs pl) p) with (e := 1) as (d & Hd & H); [|lra|].
  { intros v1 v2 Hin. split; [eapply seg_start_small; eauto|]. intros O. apply Hoff. exists v1, v2. auto. }
  exists d. split; [auto|]. intros q Hq. destruct (H q Hq) as [Oq Hs]. assert (Hoffq : ~ onPath pl q) by (intros (v1 & v2 & Hin & O); now apply (Oq v1 v2)). split; [auto|].
  destruct (isClosed pl) eqn:Hc; [|rewrite !C25_open_or_short by auto; reflexivity].
  rewrite !turnSum_winding in Hs by auto. now apply IZR_close.
Qed.

(** all points far enough away have winding number 0 *)
Theorem C47_far_zero pl : smallBulges pl -> exists B, 0 < B /\ forall q, B < dist (mkV 0 0) q -> ~ onPath pl q /\ getWindingNumber pl q = 0%Z.
Proof.
  intros Hb. destruct (sum_far (pathSegs pl)) with (e := 1) as (B & HB & H); [|lra|].
  { intros v1 v2 Hin. eapply seg_start_small; eauto. }
  exists B. split; [auto|]. intros q Hq. destruct (H q Hq) as [Oq Hs]. assert (Hoffq : ~ onPath pl q) by (intros (v1 & v2 & Hin & O); now apply (Oq v1 v2)). split; [auto|].
  destruct (isClosed pl) eqn:Hc; [|rewrite !C25_open_or_short by auto; reflexivity].
  rewrite turnSum_winding in Hs by auto. apply IZR_close. rewrite Rmult_0_r, Rminus_0_r. exact Hs.
Qed.

Lemma path_dist_continuous p (g : R -> vec) t : continuous (fun u => vx (g u)) t -> continuous (fun u => vy (g u)) t -> continuous (fun u => dist p (g u)) t.
Proof.
  intros CX CY. unfold dist.
  apply (continuous_comp (fun u => (vx p - vx (g u)) ^ 2 + (vy p - vy (g u)) ^ 2) sqrt); [|apply continuous_sqrt].
  assert (Q : forall (f : R -> R) a, continuous f t -> continuous (fun u => (a - f u) ^ 2) t).
  { intros f a Hf. apply continuous_ext with (fun u => mult (minus a (f u)) (minus a (f u))). { intros u. unfold mult, minus, plus, opp. cbn. ring. }
    apply (continuous_mult (K := R_AbsRing)); apply (continuous_minus (V := R_NormedModule)); auto; apply continuous_const. }
  apply (continuous_plus (V := R_NormedModule)); apply Q; auto.
Qed.

(** the winding number does not change along a continuous path that does not touch the polyline *)
Theorem C47_constant_along_paths pl p q : smallBulges pl -> joinable pl p q -> getWindingNumber pl p = getWindingNumber pl q.
Proof.
  intros Hb (g & (E0 & E1 & Hg) & Hoff). subst p q. set (w := fun t => getWindingNumber pl (g t)). change (w 0 = w 1).
  (* local constancy in t *)
  assert (Loc : forall t, 0 <= t <= 1 -> exists d, 0 < d /\ forall s, Rabs (s - t) < d -> w s = w t).
  { intros t Ht. destruct (C47_locally_constant pl (g t) Hb (Hoff t Ht)) as (d & Hd & H). destruct (Hg t Ht) as [CX CY].
    pose proof (path_dist_continuous (g t) g t CX CY) as Cd. apply continuity_pt_filterlim in Cd. destruct (Cd d Hd) as (a & Ha & Hx).
    exists a. split; [auto|]. intros s Hs. apply H. destruct (Req_dec s t) as [->|N].
    - replace (dist (g t) (g t)) with 0; [auto|]. unfold dist. replace ((vx (g t) - vx (g t)) ^ 2 + (vy (g t) - vy (g t)) ^ 2) with 0 by ring. now rewrite sqrt_0.
    - specialize (Hx s). cbn in Hx. unfold R_dist in Hx. replace (dist (g t) (g t)) with 0 in Hx.
      + rewrite Rminus_0_r in Hx. rewrite (Rabs_right (dist _ _)) in Hx by (apply Rle_ge, dist_nonneg). apply Hx. split; [split; [exact I|auto]|exact Hs].
      + unfold dist. replace ((vx (g t) - vx (g t)) ^ 2 + (vy (g t) - vy (g t)) ^ 2) with 0 by ring. now rewrite sqrt_0. }
  set (E := fun x => 0 <= x <= 1 /\ forall s, 0 <= s <= x -> w s = w 0).
  destruct (completeness E) as (m & Hub & Hlub).
  { exists 1. intros x (Hx & _). lra. }
  { exists 0. split; [lra|]. intros s Hs. replace s with 0 by lra. reflexivity. }
  assert (Hm0 : 0 <= m). { apply Hub. split; [lra|]. intros s Hs. replace s with 0 by lra. reflexivity. }
  assert (Hm1 : m <= 1). { apply Hlub. intros x (Hx & _). lra. }
  destruct (Loc m ltac:(lra)) as (d & Hd & Hloc).
  (* a point of E close to m *)
  assert (Hex : exists x, E x /\ m - d < x).
  { apply Classical_Prop.NNPP. intros N. assert (m <= m - d); [|lra]. apply Hlub. intros x Hx. apply Rnot_lt_le. intros L. apply N. exists x. auto. }
  destruct Hex as (x & (Hx01 & Hx) & Hxm). assert (x <= m) by (apply Hub; split; auto).
  assert (Ewm : w m = w 0). { rewrite <- (Hloc x) by (rewrite Rabs_left1; lra). apply Hx. lra. }
  destruct (Rlt_dec m 1) as [L|L].
  - exfalso. set (y := Rmin 1 (m + d / 2)). assert (Hy : m < y) by (unfold y; apply Rmin_glb_lt; lra). assert (Hy1 : y <= 1) by apply Rmin_l. assert (Hy2 : y <= m + d / 2) by apply Rmin_r.
    assert (E y); [|assert (y <= m) by (apply Hub; auto); lra]. split; [lra|]. intros s Hs. destruct (Rle_dec s x) as [Ls|Ls]; [apply Hx; lra|].
    rewrite (Hloc s); [auto|]. unfold Rabs. destruct (Rcase_abs _); lra.
  - replace 1 with m by lra. auto.
Qed.

(** a straight ray that avoids the polyline starts at a point with winding number 0 *)
Lemma ray_zero pl p nx ny : smallBulges pl -> nx * nx + ny * ny = 1 -> (forall s, 0 <= s -> ~ onPath pl (mkV (vx p + s * nx) (vy p + s * ny))) -> getWindingNumber pl p = 0%Z.
Proof.
  intros Hb Hn Hray. destruct (C47_far_zero pl Hb) as (B & HB & Hfar). set (s := B + dist (mkV 0 0) p + 1). set (q := mkV (vx p + s * nx) (vy p + s * ny)).
  pose proof (dist_nonneg (mkV 0 0) p) as Hd. assert (Hs : 0 <= s) by (unfold s; lra).
  rewrite (C47_constant_along_paths pl p q Hb).
  - apply Hfar. pose proof (dist_tri p (mkV 0 0) q) as T. rewrite (dist_sym' p (mkV 0 0)) in T.
    assert (dist p q = s). { unfold dist, q. cbn [vx vy]. replace ((vx p - (vx p + s * nx)) ^ 2 + (vy p - (vy p + s * ny)) ^ 2) with (s * s * (nx * nx + ny * ny)) by ring. rewrite Hn, Rmult_1_r. now apply sqrt_square. }
    unfold s in *. lra.
  - exists (fun t => mkV (vx p + t * s * nx) (vy p + t * s * ny)). split; [split; [|split]|].
    + apply vec_eq; rcbn; ring. + apply vec_eq; unfold q; rcbn; ring.
    + intros t _. cbn [vx vy]. split; apply (ex_derive_continuous (V := R_NormedModule)); auto_derive; auto.
    + intros t Ht. apply Hray. apply Rmult_le_pos; lra.
Qed.

(** a point outside the box given by getExtents has winding number 0 *)
Theorem C47_outside_extents pl q x0 y0 x1 y1 : isClosed pl = true -> okPath pl -> smallBulges pl -> extentsAre pl x0 y0 x1 y1 ->
  (vx q < x0 \/ x1 < vx q \/ vy q < y0 \/ y1 < vy q) -> getWindingNumber pl q = 0%Z.
Proof.
  intros Hc Hok Hb He Hq.
  assert (Hbox : forall x, onPath pl x -> x0 <= vx x <= x1 /\ y0 <= vy x <= y1).
  { intros x (v1 & v2 & Hin & O). destruct (C26_contains pl v1 v2 x Hok Hin O (or_introl Hc)) as (a & b & c & d & He' & H). unfold extentsAre in *. rewrite He in He'. injection He' as <- <- <- <-. exact H. }
  destruct Hq as [H|[H|[H|H]]].
  - apply (ray_zero pl q (-1) 0 Hb); [ring|]. intros s Hs O. apply Hbox in O. cbn [vx vy] in O. lra.
  - apply (ray_zero pl q 1 0 Hb); [ring|]. intros s Hs O. apply Hbox in O. cbn [vx vy] in O. lra.
  - apply (ray_zero pl q 0 (-1) Hb); [ring|]. intros s Hs O. apply Hbox in O. cbn [vx vy] in O. lra.
  - apply (ray_zero pl q 0 1 Hb); [ring|]. intros s Hs O. apply Hbox in O. cbn [vx vy] in O. lra.
Qed.

(** ** Regions *)
(** strictly inside / outside a closed polyline (non zero winding) *)
Definition insideOf (pl : polyline) (q : vec) : Prop := ~ onPath pl q /\ getWindingNumber pl q <> 0%Z.
Definition outsideOf (pl : polyline) (q : vec) : Prop := ~ onPath pl q /\ getWindingNumber pl q = 0%Z.

Definition disjointPaths (A B : polyline) : Prop := forall q, ~ (onPath A q /\ onPath B q).

Lemma joinable_sub pl p g t : smallBulges pl -> (forall u, 0 <= u <= 1 -> continuous (fun u => vx (g u)) u /\ continuous (fun u => vy (g u)) u) ->
  (forall u, 0 <= u <= 1 -> ~ onPath pl (g u)) -> g 0 = p -> 0 <= t <= 1 -> getWindingNumber pl (g t) = getWindingNumber pl p.
Proof.
  intros Hb Hg Hoff E0 Ht. symmetry. apply C47_constant_along_paths; [auto|]. exists (fun u => g (u * t)). split; [split; [now rewrite Rmult_0_l|split; [now rewrite Rmult_1_l|]]|].
  - intros u Hu. assert (0 <= u * t <= 1) as Hut by nra. destruct (Hg (u * t) Hut) as [CX CY].
    assert (Cm : continuous (fun u => u * t) u). { apply (ex_derive_continuous (V := R_NormedModule)). auto_derive. auto. }
    split; [apply (continuous_comp (fun u => u * t) (fun u => vx (g u)))|apply (continuous_comp (fun u => u * t) (fun u => vy (g u)))]; auto.
  - intros u Hu. apply Hoff. nra.
Qed.

(** along a segment that avoids [pl] the winding number is constant *)
Lemma seg_const pl v1 v2 x : smallBulges pl -> (forall q, onSeg v1 v2 q -> ~ onPath pl q) -> onSeg v1 v2 x -> getWindingNumber pl x = getWindingNumber pl (pos v1).
Proof.
  intros Hb Hoff Hx. apply onSeg_path in Hx. destruct Hx as (t & Ht & ->). apply (joinable_sub pl (pos v1) (segPath v1 v2) t); auto.
  - intros u _. apply seg_continuous.
  - intros u Hu. apply Hoff. apply onSeg_path. eauto.
  - unfold segPath. destruct (Rlt_dec _ _); [apply lerp_0|now rewrite Rmult_0_l, rot_0].
Qed.

Lemma open_const pl : smallBulges pl -> forall vs v0, (forall v1 v2 q, In (v1, v2) (openSegs v0 vs) -> onSeg v1 v2 q -> ~ onPath pl q) ->
  (forall v1 v2 x, In (v1, v2) (openSegs v0 vs) -> onSeg v1 v2 x -> getWindingNumber pl x = getWindingNumber pl (pos v0)) /\
  getWindingNumber pl (pos (last vs v0)) = getWindingNumber pl (pos v0).
Proof.
  intros Hb. induction vs as [|v vs IH]; intros v0 H; [split; [intros ? ? ? []|reflexivity]|]. cbn [openSegs] in H.
  assert (H0 : forall x, onSeg v0 v x -> getWindingNumber pl x = getWindingNumber pl (pos v0)).
  { intros x Hx. apply (seg_const pl v0 v x Hb); [|auto]. intros q. apply (H v0 v q). now left. }
  destruct (IH v) as [IH1 IH2]. { intros v1 v2 q Hin. apply H. now right. }
  assert (Ev : getWindingNumber pl (pos v) = getWindingNumber pl (pos v0)) by apply H0, seg_ends. split.
  - intros v1 v2 x [E|Hin] Hx; [injection E as <- <-; auto|]. rewrite <- Ev. eapply IH1; eauto.
  - rewrite <- Ev, <- IH2. f_equal. f_equal. clear. destruct vs as [|a l]; [reflexivity|]. change (last (v :: a :: l) v0) with (last (a :: l) v0). revert a. induction l as [|b l IH]; intros a; [reflexivity|]. apply (IH b).
Qed.

(** a polyline that avoids [pl] has the same winding number everywhere *)
Lemma path_const pl A : smallBulges pl -> disjointPaths A pl -> forall v0 vs x, vertexes A = v0 :: vs -> onPath A x -> getWindingNumber pl x = getWindingNumber pl (pos v0).
Proof.
  intros Hb Hd v0 vs x Ev (v1 & v2 & Hin & Hx). unfold pathSegs in Hin. rewrite Ev in Hin. destruct vs as [|w vs]; [destruct Hin|]. set (l := w :: vs) in *.
  assert (Hsub : forall a b q, In (a, b) (openSegs v0 l) -> onSeg a b q -> ~ onPath pl q).
  { intros a b q Ha Hq O. apply (Hd q). split; [|auto]. exists a, b. split; [|auto]. unfold pathSegs. rewrite Ev. apply in_or_app. now left. }
  destruct (open_const pl Hb l v0 Hsub) as [H1 H2]. apply in_app_or in Hin. destruct Hin as [Hin|Hin]; [eapply H1; eauto|].
  destruct (isClosed A) eqn:Hc; [|destruct Hin]. destruct Hin as [E|[]]. injection E as <- <-. rewrite <- H2. apply (seg_const pl (last l v0) v0 x Hb); [|auto].
  intros q Hq O. apply (Hd q). split; [|auto]. exists (last l v0), v0. split; [|auto]. unfold pathSegs. rewrite Ev. apply in_or_app. right. rewrite Hc. now left.
Qed.

Lemma first_onPath A v0 vs : vertexes A = v0 :: vs -> (2 <= length (vertexes A))%nat -> onPath A (pos v0).
Proof.
  intros Ev Hl. rewrite Ev in Hl. destruct vs as [|v1 vs]; [cbn in Hl; lia|]. exists v0, v1. split; [|apply seg_ends]. unfold pathSegs. rewrite Ev. now left.
Qed.

Lemma disjoint_sym A B : disjointPaths A B -> disjointPaths B A.
Proof. intros H q [H1 H2]. apply (H q). auto. Qed.

(** ** Rays *)
Definition ray (p : vec) (s : R) : vec := mkV (vx p + s) (vy p).

Lemma ray_dist p s u : dist (ray p s) (ray p u) = Rabs (s - u).
Proof. unfold dist, ray. cbn [vx vy]. replace ((vx p + s - (vx p + u)) ^ 2 + (vy p - vy p) ^ 2) with (Rsqr (s - u)) by (unfold Rsqr; ring). apply sqrt_Rsqr_abs. Qed.

Lemma ray_0 p : ray p 0 = p.
Proof. apply vec_eq; unfold ray; rcbn; rring. Qed.

(** no change of the winding number on a part of the ray that avoids the polyline *)
Lemma ray_const pl p s u : smallBulges pl -> s <= u -> (forall x, s <= x <= u -> ~ onPath pl (ray p x)) -> getWindingNumber pl (ray p s) = getWindingNumber pl (ray p u).
Proof.
  intros Hb Hsu Hoff. apply C47_constant_along_paths; [auto|]. exists (fun t => ray p (s + t * (u - s))). split; [split; [|split]|].
  - f_equal. ring. - f_equal. ring.
  - intros t _. unfold ray. cbn [vx vy]. split; apply (ex_derive_continuous (V := R_NormedModule)); auto_derive; auto.
  - intros t Ht. apply Hoff. nra.
Qed.

Section TwoPaths.
Variables A B : polyline.
Hypotheses (HA : smallBulges A) (HB : smallBulges B) (Hd : disjointPaths A B).
Let hit (p : vec) (s : R) : Prop := onPath A (ray p s) \/ onPath B (ray p s).

Lemma hit_closed p s : ~ hit p s -> exists d, 0 < d /\ forall u, Rabs (u - s) < d -> ~ hit p u.
Proof.
  intros N. destruct (C47_locally_constant A (ray p s) HA) as (d1 & H1 & L1); [intros O; apply N; now left|].
  destruct (C47_locally_constant B (ray p s) HB) as (d2 & H2 & L2); [intros O; apply N; now right|].
  exists (Rmin d1 d2). split; [now apply Rmin_glb_lt|]. intros u Hu. assert (D : dist (ray p s) (ray p u) < Rmin d1 d2) by (rewrite ray_dist, Rabs_minus_sym; auto).
  pose proof (Rmin_l d1 d2). pose proof (Rmin_r d1 d2). intros [O|O]; [apply (L1 (ray p u)) in O|apply (L2 (ray p u)) in O]; auto; lra.
Qed.

Lemma far_ray p : exists M, 0 <= M /\ forall s, M <= s -> ~ hit p s /\ getWindingNumber A (ray p s) = 0%Z /\ getWindingNumber B (ray p s) = 0%Z.
Proof.
  destruct (C47_far_zero A HA) as (B1 & HB1 & F1). destruct (C47_far_zero B HB) as (B2 & HB2 & F2). pose proof (dist_nonneg (mkV 0 0) p) as Hp.
  exists (B1 + B2 + dist (mkV 0 0) p + 1). split; [lra|]. intros s Hs.
  assert (D : B1 + B2 < dist (mkV 0 0) (ray p s)).
  { pose proof (dist_tri p (mkV 0 0) (ray p s)) as T. rewrite (dist_sym' p (mkV 0 0)) in T. pose proof (ray_dist p 0 s) as R. rewrite ray_0, Rabs_left1 in R by lra. lra. }
  destruct (F1 (ray p s)) as [O1 W1]; [lra|]. destruct (F2 (ray p s)) as [O2 W2]; [lra|]. split; [intros [O|O]; auto|auto].
Qed.

Lemma first_hit p s0 : ~ hit p 0 -> 0 <= s0 -> hit p s0 -> exists s, 0 <= s /\ hit p s /\ forall u, 0 <= u < s -> ~ hit p u.
Proof.
  intros N0 Hs0 H0. set (E := fun x => 0 <= x /\ forall u, 0 <= u <= x -> ~ hit p u).
  destruct (completeness E) as (m & Hub & Hlub).
  { exists s0. intros x [Hx1 Hx2]. apply Rnot_lt_le. intros L. apply (Hx2 s0); auto. lra. }
  { exists 0. split; [lra|]. intros u Hu. replace u with 0 by lra. auto. }
  assert (Hm : 0 <= m). { apply Hub. split; [lra|]. intros u Hu. replace u with 0 by lra. auto. }
  assert (Below : forall u, 0 <= u < m -> ~ hit p u).
  { intros u Hu Hh. assert (m <= u); [|lra]. apply Hlub. intros x [Hx1 Hx2]. apply Rnot_lt_le. intros L. apply (Hx2 u); auto. lra. }
  exists m. split; [auto|]. split; [|auto]. apply Classical_Prop.NNPP. intros N. destruct (hit_closed p m N) as (d & Hd0 & Hn).
  assert (m + d / 2 <= m); [|lra]. apply Hub. split; [lra|]. intros u Hu. destruct (Rlt_dec u m) as [L|L]; [apply Below; lra|]. apply Hn. rewrite Rabs_right; lra.
Qed.

Lemma last_hit p s0 : 0 <= s0 -> hit p s0 -> exists s, 0 <= s /\ hit p s /\ forall u, s < u -> ~ hit p u.
Proof.
  intros Hs0 H0. destruct (far_ray p) as (M & HM & Far). set (E := fun x => 0 <= x /\ hit p x).
  destruct (completeness E) as (m & Hub & Hlub).
  { exists M. intros x [Hx1 Hx2]. apply Rnot_lt_le. intros L. apply (proj1 (Far x ltac:(lra))). auto. }
  { exists s0. split; auto. }
  assert (Hm : s0 <= m) by (apply Hub; split; auto).
  assert (Above : forall u, m < u -> ~ hit p u). { intros u Hu Hh. assert (u <= m); [apply Hub; split; auto|]; lra. }
  exists m. split; [lra|]. split; [|auto]. apply Classical_Prop.NNPP. intros N. destruct (hit_closed p m N) as (d & Hd0 & Hn).
  assert (m <= m - d / 2); [|lra]. apply Hlub. intros x [Hx1 Hx2]. apply Rnot_lt_le. intros L. apply (Hn x); auto. assert (x <= m) by (apply Hub; split; auto). rewrite Rabs_left1; lra.
Qed.

(** the last point of the ray on either polyline: on A it has winding number 0 with respect to B, and conversely *)
Lemma last_outside p s0 : 0 <= s0 -> hit p s0 -> exists s, 0 <= s /\ ((onPath A (ray p s) /\ getWindingNumber B (ray p s) = 0%Z) \/ (onPath B (ray p s) /\ getWindingNumber A (ray p s) = 0%Z)).
Proof.
  intros Hs0 H0. destruct (last_hit p s0 Hs0 H0) as (s & Hs & Hh & Ha). destruct (far_ray p) as (M & HM & Far). exists s. split; [auto|].
  set (M' := Rmax M (s + 1)). assert (H1 : M <= M') by apply Rmax_l. assert (H2 : s + 1 <= M') by apply Rmax_r. destruct (Far M' H1) as (_ & WA & WB).
  destruct Hh as [O|O]; [left|right]; (split; [auto|]).
  - rewrite (ray_const B p s M' HB); [auto|lra|]. intros x Hx O'. destruct (Req_dec x s) as [->|Ne]; [apply (Hd (ray p s)); auto|]. apply (Ha x); [lra|now right].
  - rewrite (ray_const A p s M' HA); [auto|lra|]. intros x Hx O'. destruct (Req_dec x s) as [->|Ne]; [apply (Hd (ray p s)); auto|]. apply (Ha x); [lra|now left].
Qed.

(** the first one has the winding number of p *)
Lemma first_same p s0 : ~ onPath A p -> ~ onPath B p -> 0 <= s0 -> hit p s0 -> exists s, 0 <= s /\
  ((onPath A (ray p s) /\ getWindingNumber B (ray p s) = getWindingNumber B p) \/ (onPath B (ray p s) /\ getWindingNumber A (ray p s) = getWindingNumber A p)).
Proof.
  intros NA NB Hs0 H0. destruct (first_hit p s0) as (s & Hs & Hh & Hb); auto. { unfold hit. rewrite ray_0. tauto. }
  exists s. split; [auto|]. destruct Hh as [O|O]; [left|right]; (split; [auto|]).
  - rewrite <- (ray_const B p 0 s HB), ray_0; [auto|lra|]. intros x Hx O'. destruct (Req_dec x s) as [->|Ne]; [apply (Hd (ray p s)); auto|]. apply (Hb x); [lra|now right].
  - rewrite <- (ray_const A p 0 s HA), ray_0; [auto|lra|]. intros x Hx O'. destruct (Req_dec x s) as [->|Ne]; [apply (Hd (ray p s)); auto|]. apply (Hb x); [lra|now left].
Qed.

(** a point inside A sees A *)
Lemma inside_hits p : insideOf A p -> exists s, 0 <= s /\ hit p s.
Proof.
  intros [Hoff Hw]. apply Classical_Prop.NNPP. intros N. apply Hw. destruct (far_ray p) as (M & HM & Far). rewrite <- (ray_0 p). rewrite (ray_const A p 0 M HA HM).
  - apply Far. lra.
  - intros x Hx O. apply N. exists x. split; [lra|now left].
Qed.
End TwoPaths.

(** A starts inside B: the inside of A is inside B.  No assumption on A and B being simple is needed: follow the ray
    from a point inside A and outside B; its first point on A or B must be on B, so that B lies inside A as well,
    but then the last point on A or B would be outside the other one. *)
Lemma nested A B v0 vs : smallBulges A -> smallBulges B -> disjointPaths A B ->
  vertexes A = v0 :: vs -> getWindingNumber B (pos v0) <> 0%Z -> forall q, ~ onPath B q -> insideOf A q -> insideOf B q.
Proof.
  intros HA HB Hd Ev Hin q Hoff IA. split; [auto|]. intros E. assert (HqA := proj1 IA). assert (HwA := proj2 IA).
  destruct (inside_hits A B HA HB q IA) as (s0 & Hs0 & H0).
  assert (KA : forall x, onPath A x -> getWindingNumber B x <> 0%Z). { intros x O. rewrite (path_const B A HB Hd v0 vs x Ev O). auto. }
  destruct (first_same A B HA HB Hd q s0 HqA Hoff Hs0 H0) as (s & Hs & [[O W]|[O W]]); [apply (KA _ O); congruence|].
  destruct (vertexes B) as [|w0 ws] eqn:EB. { destruct O as (v1 & v2 & Hi & _). unfold pathSegs in Hi. rewrite EB in Hi. destruct Hi. }
  pose proof (path_const A B HA (disjoint_sym _ _ Hd) w0 ws _ EB O) as Ew.
  destruct (last_outside A B HA HB Hd q s0 Hs0 H0) as (s' & Hs' & [[O' W']|[O' W']]); [apply (KA _ O'); auto|].
  rewrite (path_const A B HA (disjoint_sym _ _ Hd) w0 ws _ EB O') in W'. congruence.
Qed.

(** neither starts inside the other: the insides are disjoint *)
Lemma apart A B v0 vs w0 ws : smallBulges A -> smallBulges B -> disjointPaths A B ->
  vertexes A = v0 :: vs -> vertexes B = w0 :: ws -> getWindingNumber B (pos v0) = 0%Z -> getWindingNumber A (pos w0) = 0%Z ->
  forall q, ~ (insideOf A q /\ insideOf B q).
Proof.
  intros HA HB Hd EA EB WA WB q [IA [OB NB]]. destruct (inside_hits A B HA HB q IA) as (s0 & Hs0 & H0). destruct IA as [OA NA].
  destruct (first_same A B HA HB Hd q s0 OA OB Hs0 H0) as (s & Hs & [[O W]|[O W]]).
  - rewrite (path_const B A HB Hd v0 vs _ EA O) in W. congruence.
  - rewrite (path_const A B HA (disjoint_sym _ _ Hd) w0 ws _ EB O) in W. congruence.
Qed.

(** ** Circles (two half circle arcs) *)
Definition circle (k r : R) : polyline := mkPline true [mkVertex (k - r) 0 1; mkVertex (k + r) 0 1].

Section Circle.
Variables (k r : R).
Hypothesis Hr : 0 < r.
Let c : vec := mkV k 0.
Let A : vertex := mkVertex (k - r) 0 1.
Let B : vertex := mkVertex (k + r) 0 1.

Lemma circle_segs : pathSegs (circle k r) = [(A, B); (B, A)].
Proof. reflexivity. Qed.

Lemma A_arc : ~ Rabs (bulge A) < 1 / 100000.
Proof. unfold A. cbn [bulge mkVertex]. rewrite Rabs_R1. lra. Qed.
Lemma B_arc : ~ Rabs (bulge B) < 1 / 100000.
Proof. unfold B. cbn [bulge mkVertex]. rewrite Rabs_R1. lra. Qed.
Lemma sweep_1 : sweep 1 = PI.
Proof. unfold sweep. rewrite atan_1. field. Qed.
Lemma ctr_AB : ctr (pos A) (pos B) (bulge A) = c.
Proof. unfold ctr, cK, A, B, c, mkVertex. apply vec_eq; rcbn; field. Qed.
Lemma ctr_BA : ctr (pos B) (pos A) (bulge B) = c.
Proof. unfold ctr, cK, A, B, c, mkVertex. apply vec_eq; rcbn; field. Qed.

Lemma pathAB t : segPath A B t = mkV (k - r * cos (t * PI)) (- (r * sin (t * PI))).
Proof. unfold segPath. destruct (Rlt_dec _ _) as [H|_]; [destruct (A_arc H)|]. rewrite ctr_AB. unfold A, c, rot. cbn [bulge pos mkVertex vx vy]. rewrite sweep_1. apply vec_eq; rcbn; ring. Qed.
Lemma pathBA t : segPath B A t = mkV (k + r * cos (t * PI)) (r * sin (t * PI)).
Proof. unfold segPath. destruct (Rlt_dec _ _) as [H|_]; [destruct (B_arc H)|]. rewrite ctr_BA. unfold B, c, rot. cbn [bulge pos mkVertex vx vy]. rewrite sweep_1. apply vec_eq; rcbn; ring. Qed.

Lemma dist_polar a : dist c (mkV (k + r * cos a) (r * sin a)) = r.
Proof.
  unfold dist, c. cbn [vx vy]. replace ((k - (k + r * cos a)) ^ 2 + (0 - r * sin a) ^ 2) with (r * r * (Rsqr (sin a) + Rsqr (cos a))) by (unfold Rsqr; ring).
  rewrite sin2_cos2, Rmult_1_r. apply sqrt_square. lra.
Qed.

Lemma circle_path q : onPath (circle k r) q <-> dist c q = r.
Proof.
  split.
  - intros (v1 & v2 & Hin & O). rewrite circle_segs in Hin. apply onSeg_path in O. destruct O as (t & Ht & ->). destruct Hin as [E|[E|[]]]; injection E as <- <-.
    + rewrite pathAB. transitivity (dist c (mkV (k + r * cos (t * PI + PI)) (r * sin (t * PI + PI)))); [|apply dist_polar]. f_equal. rewrite neg_cos, neg_sin. apply vec_eq; rcbn; ring.
    + rewrite pathBA. apply dist_polar.
  - intros Hd. assert (N : q <> c) by (apply dist_pos_ne; lra). destruct (angU_polar c q N) as (Ex & Ey & _). pose proof (angU_bounds c q) as Hb. rewrite Hd in Ex, Ey. unfold c in Ex, Ey. cbn [vx vy] in Ex, Ey.
    set (a := angU _ q) in *. pose proof PI_RGT_0. destruct (Rle_dec a PI) as [L|L].
    + exists B, A. split; [rewrite circle_segs; right; now left|]. apply onSeg_path. exists (a / PI). split; [split; [apply Rmult_le_pos; [lra|left; apply Rinv_0_lt_compat; lra]|apply Rmult_le_reg_r with PI; [auto|]; unfold Rdiv; rewrite Rmult_assoc, Rinv_l by lra; lra]|].
      rewrite pathBA. replace (a / PI * PI) with a by (field; lra). apply vec_eq; rcbn; lra.
    + exists A, B. split; [rewrite circle_segs; now left|]. apply onSeg_path. exists ((a - PI) / PI). split; [split; [apply Rmult_le_pos; [lra|left; apply Rinv_0_lt_compat; lra]|apply Rmult_le_reg_r with PI; [auto|]; unfold Rdiv; rewrite Rmult_assoc, Rinv_l by lra; lra]|].
      rewrite pathAB. replace ((a - PI) / PI * PI) with (a - PI) by (field; lra).
      assert (cos a = - cos (a - PI)) by (rewrite <- neg_cos; f_equal; ring). assert (sin a = - sin (a - PI)) by (rewrite <- neg_sin; f_equal; ring).
      apply vec_eq; rcbn; rewrite ?H0, ?H1 in *; lra.
Qed.

Lemma circle_small : smallBulges (circle k r).
Proof. unfold smallBulges, circle. cbn [vertexes]. repeat constructor; cbn [bulge mkVertex]; rewrite Rabs_R1; lra. Qed.

Lemma circle_centre : getWindingNumber (circle k r) c <> 0%Z.
Proof.
  intros E. assert (Oc : ~ onPath (circle k r) c). { intros O. apply circle_path in O. unfold dist in O. replace ((vx c - vx c) ^ 2 + (vy c - vy c) ^ 2) with 0 in O by ring. rewrite sqrt_0 in O. lra. }
  pose proof (turnSum_winding (circle k r) c eq_refl circle_small Oc) as H. rewrite E, Rmult_0_r in H. rewrite circle_segs in H. unfold turnSum in H. cbn [map fold_right fst snd] in H.
  assert (Pos : forall v1 v2, ~ Rabs (bulge v1) < 1 / 100000 -> ctr (pos v1) (pos v2) (bulge v1) = c -> bulge v1 = 1 -> pos v1 <> c -> 0 < RInt (angSpeed c (segPath v1 v2)) 0 1).
  { intros v1 v2 Hl Ec Eb N. pose proof PI_RGT_0. destruct (arc_turn_in c (pos v1) c (sweep (bulge v1))) as (D & HD & _ & Hp & _).
    - unfold sq2. assert (0 < dist c (pos v1)) as P by (apply dist_pos; auto). unfold dist in P. apply Rnot_le_lt. intros L. rewrite sqrt_neg_0 in P; [lra|]. 
      replace ((vx c - vx (pos v1)) ^ 2 + (vy c - vy (pos v1)) ^ 2) with ((vx (pos v1) - vx c) * (vx (pos v1) - vx c) + (vy (pos v1) - vy c) * (vy (pos v1) - vy c)) by ring. eapply Rle_trans; [exact L|]. right. ring.
    - rewrite Eb, sweep_1 in Hp, HD. specialize (Hp ltac:(lra)). replace (RInt (angSpeed c (segPath v1 v2)) 0 1) with D; [auto|]. symmetry. apply (is_RInt_unique (V := R_CompleteNormedModule)).
      eapply is_RInt_ext; [|exact HD]. intros t _. apply angSpeed_ext. intros u. unfold segPath. destruct (Rlt_dec _ _); [contradiction|]. now rewrite Ec, Eb, sweep_1. }
  assert (0 < RInt (angSpeed c (segPath A B)) 0 1). { apply Pos; [apply A_arc|apply ctr_AB|reflexivity|]. unfold A, c. cbn. intros E'. injection E'. lra. }
  assert (0 < RInt (angSpeed c (segPath B A)) 0 1). { apply Pos; [apply B_arc|apply ctr_BA|reflexivity|]. unfold B, c. cbn. intros E'. injection E'. lra. }
  lra.
Qed.

(** straight path from the centre *)
Lemma circle_to_centre q : dist c q < r -> joinable (circle k r) c q.
Proof.
  intros Hq. exists (lerp c q). split; [split; [apply lerp_0|split; [apply lerp_1|]]|].
  - intros t _. unfold lerp. cbn [vx vy]. split; apply (ex_derive_continuous (V := R_NormedModule)); auto_derive; auto.
  - intros t Ht O. apply circle_path in O. assert (dist c (lerp c q t) = t * dist c q). { unfold dist, lerp. cbn [vx vy]. rewrite <- (sqrt_square t) at 3 by lra. rewrite <- sqrt_mult_alt by nra. f_equal. ring. }
    pose proof (dist_nonneg c q). nra.
Qed.

Lemma circle_inside q : dist c q < r -> insideOf (circle k r) q.
Proof.
  intros Hq. split; [intros O; apply circle_path in O; lra|]. rewrite <- (C47_constant_along_paths _ c q circle_small (circle_to_centre q Hq)). apply circle_centre.
Qed.

Lemma circle_outside q : r < dist c q -> outsideOf (circle k r) q.
Proof.
  intros Hq. split; [intros O; apply circle_path in O; lra|]. assert (0 < dist c q) as P by lra.
  apply (ray_zero _ q ((vx q - k) / dist c q) (vy q / dist c q) circle_small).
  - replace ((vx q - k) / dist c q * ((vx q - k) / dist c q) + vy q / dist c q * (vy q / dist c q)) with (((vx q - k) ^ 2 + vy q ^ 2) / (dist c q * dist c q)) by (field; lra).
    replace (dist c q * dist c q) with ((vx q - k) ^ 2 + vy q ^ 2). { field. intros E0. apply Rlt_not_eq in P. apply P. unfold dist. unfold c. cbn [vx vy]. replace ((k - vx q) ^ 2 + (0 - vy q) ^ 2) with ((vx q - k) ^ 2 + vy q ^ 2) by ring. rewrite E0. symmetry. apply sqrt_0. }
    unfold dist. rewrite sqrt_sqrt; [|apply Rplus_le_le_0_compat; apply pow2_ge_0]. unfold c. cbn [vx vy]. ring.
  - intros s Hs O. apply circle_path in O.
    assert (dist c (mkV (vx q + s * ((vx q - k) / dist c q)) (vy q + s * (vy q / dist c q))) = dist c q + s).
    { set (d := dist c q) in *. unfold dist, c. cbn [vx vy].
      replace ((k - (vx q + s * ((vx q - k) / d))) ^ 2 + (0 - (vy q + s * (vy q / d))) ^ 2) with (((1 + s / d) * (1 + s / d)) * ((k - vx q) ^ 2 + (0 - vy q) ^ 2)) by (field; lra).
      rewrite sqrt_mult_alt by exact (Rle_0_sqr (1 + s / d)). rewrite sqrt_square. 2:{ assert (0 <= s / d) by (apply Rmult_le_pos; [lra|left; apply Rinv_0_lt_compat; lra]). lra. }
      change (sqrt ((k - vx q) ^ 2 + (0 - vy q) ^ 2)) with d. field. lra. }
    lra.
Qed.

Lemma joinable_trans_polar p q : r < dist c p -> r < dist c q -> joinable (circle k r) p q.
Proof.
  intros Hp Hq. assert (Np : p <> c) by (apply dist_pos_ne; lra). assert (Nq : q <> c) by (apply dist_pos_ne; lra).
  destruct (angU_polar c p Np) as (Px & Py & _). destruct (angU_polar c q Nq) as (Qx & Qy & _). set (a := angU c p) in *. set (b := angU c q) in *. set (d1 := dist c p) in *. set (d2 := dist c q) in *.
  exists (fun t => mkV (k + (d1 + t * (d2 - d1)) * cos (a + t * (b - a))) ((d1 + t * (d2 - d1)) * sin (a + t * (b - a)))). unfold c in Px, Py, Qx, Qy. cbn [vx vy] in *.
  split; [split; [|split]|].
  - replace (d1 + 0 * (d2 - d1)) with d1 by ring. replace (a + 0 * (b - a)) with a by ring. apply vec_eq; rcbn; lra.
  - replace (d1 + 1 * (d2 - d1)) with d2 by ring. replace (a + 1 * (b - a)) with b by ring. apply vec_eq; rcbn; lra.
  - intros t _. cbn [vx vy]. split; apply (ex_derive_continuous (V := R_NormedModule)); auto_derive; auto.
  - intros t Ht O. apply circle_path in O. set (d := d1 + t * (d2 - d1)) in *. assert (r < d).
    { unfold d. destruct (Rle_dec d1 d2) as [L|L]; [assert (0 <= t * (d2 - d1)) by (apply Rmult_le_pos; lra); lra|]. assert (0 <= (1 - t) * (d1 - d2)) by (apply Rmult_le_pos; lra). lra. }
    assert (dist c (mkV (k + d * cos (a + t * (b - a))) (d * sin (a + t * (b - a)))) = d); [|lra].
    unfold dist, c. cbn [vx vy]. set (x := a + t * (b - a)). replace ((k - (k + d * cos x)) ^ 2 + (0 - d * sin x) ^ 2) with (d * d * (Rsqr (sin x) + Rsqr (cos x))) by (unfold Rsqr; ring).
    rewrite sin2_cos2, Rmult_1_r. apply sqrt_square. lra.
Qed.

Lemma joinable_sym pl p q : joinable pl p q -> joinable pl q p.
Proof.
  intros (g & (E0 & E1 & Hg) & Ho). exists (fun t => g (1 - t)). split; [split; [now replace (1 - 0) with 1 by ring|split; [now replace (1 - 1) with 0 by ring|]]|].
  - intros t Ht. destruct (Hg (1 - t) ltac:(lra)) as [CX CY]. assert (Cm : continuous (fun u => 1 - u) t). { apply (ex_derive_continuous (V := R_NormedModule)). auto_derive. auto. }
    split; [apply (continuous_comp (fun u => 1 - u) (fun u => vx (g u)))|apply (continuous_comp (fun u => 1 - u) (fun u => vy (g u)))]; auto.
  - intros t Ht. apply Ho. lra.
Qed.

End Circle.
