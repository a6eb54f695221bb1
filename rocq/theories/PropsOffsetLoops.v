(** * C68: each single result of offsetting a simple closed straight polyline winds exactly once around what it encloses; offsets to the inside keep the orientation *)
From Coq Require Import ZArith Reals Lra Lia List Bool Arith Permutation Classical.
From Coquelicot Require Import Coquelicot.
From Verif Require Import Base Num MathUtils PlineSegment SpatialIndex Polyline Intersects Combine Offset StdLaws RGeom Spec PropsMath ArcGeom Polar PropsSegment PropsClosest PropsIntr PropsPlineIntr PropsPolyline PropsArea Turning PropsWinding PropsRegion PropsPlineIndex PropsExtents PropsCoincident PropsSlices PropsStitch PropsCombine PropsPieces PropsTrace PropsBoolOps PropsOffset PropsOffsetSlices PropsOffsetSegs PropsRawOffset PropsJoins PropsRawStructure PropsRawGeom PropsRawPoints PropsParallelTotal PropsOffsetRuns PropsOffsetCuts PropsCover PropsRunPoints PropsEuler PropsBalance PropsTurnBalance PropsRegionOps PropsRegionArea PropsJordan PropsWindArea PropsRegionMeasure PropsOffsetParts PropsOffsetResult PropsOffsetConst PropsOffsetExact PropsOffsetHits PropsOffsetExample PropsOffsetSide PropsOffsetGerm PropsIslandExact PropsOffsetRegion.
Import ListNotations.
Open Scope R_scope.

(** ** Moving along straight lines *)
Lemma lerp_move p q s t : dist (lerp p q s) (lerp p q t) = Rabs (s - t) * dist p q.
Proof.
  rewrite !dist_sqd. replace (sqd (lerp p q s) (lerp p q t)) with ((s - t) * (s - t) * sqd p q) by (unfold sqd, lerp; cbn [vx vy]; rring).
  rewrite sqrt_mult; [|apply Rle_0_sqr|apply sqd_nonneg]. f_equal. exact (sqrt_Rsqr_abs (s - t)).
Qed.

Lemma along_line (P : vec -> Prop) p q : (forall t, 0 <= t <= 1 -> exists e, 0 < e /\ forall q', dist (lerp p q t) q' < e -> (P q' <-> P (lerp p q t))) -> P p -> P q.
Proof.
  intros L Pp. pose proof (lerp_0 p q) as E0. pose proof (lerp_1 p q) as E1.
  rewrite <- E1. apply (pred_connected (fun t => P (lerp p q t)) 0 1); [lra| |now rewrite E0].
  intros t Ht. destruct (L t Ht) as (e & He & H). exists (e / (dist p q + 1)). pose proof (dist_nonneg p q) as Dp. split; [apply Rdiv_lt_0_compat; lra|].
  intros s Hs Hst. apply H. rewrite lerp_move. rewrite (Rabs_minus_sym t s). apply (Rmult_lt_compat_r (dist p q + 1)) in Hst; [|lra].
  replace (e / (dist p q + 1) * (dist p q + 1)) with e in Hst by (field; lra). pose proof (Rabs_pos (s - t)). nra.
Qed.

Lemma fresh_between (l : list R) : forall a b, a < b -> exists m, a < m < b /\ ~ In m l.
Proof.
  induction l as [|x l IH]; intros a b Hab; [exists ((a + b) / 2); split; [lra|intros []]|].
  destruct (IH a ((a + b) / 2) ltac:(lra)) as (m1 & H1 & N1). destruct (IH ((a + b) / 2) b ltac:(lra)) as (m2 & H2 & N2).
  destruct (Req_dec x m1) as [->|N]; [exists m2; split; [lra|]; intros [E|E]; [lra|auto]|exists m1; split; [lra|]; intros [E|E]; auto].
Qed.

(** from every point there is a straight way to far away that avoids finitely many points *)
Lemma escape z (Xs : list vec) B : ~ In z Xs -> exists F, B < dist (mkV 0 0) F /\ forall t, 0 <= t <= 1 -> ~ In (lerp z F t) Xs.
Proof.
  intros Nz. destruct (fresh (map (fun x => (vy x - vy z) / (vx x - vx z)) Xs)) as (m & Hm). set (L := Rabs B + Rabs (vx z) + 1).
  pose proof (Rabs_pos B) as PB. pose proof (Rabs_pos (vx z)) as Pz. pose proof (Rle_abs B) as QB. pose proof (Rle_abs (- vx z)) as Qz. rewrite Rabs_Ropp in Qz.
  exists (mkV (vx z + L) (vy z + L * m)). split.
  - rewrite dist_sqd. apply Rlt_le_trans with (sqrt ((vx z + L) * (vx z + L))); [rewrite sqrt_square; unfold L; lra|]. apply sqrt_le_1_alt. unfold sqd. cbn [vx vy].
    assert (Q : forall a b : R, a * a <= (0 - a) * (0 - a) + (0 - b) * (0 - b)) by (intros; nra). apply Q.
  - intros t Ht Hin. destruct (Req_dec t 0) as [->|N0].
    + apply Nz. rewrite lerp_0 in Hin. exact Hin.
    + apply Hm. apply in_map_iff. eexists. split; [|exact Hin]. unfold lerp. cbn [vx vy]. set (a := vx z) in *. set (b := vy z) in *. clearbody a b. assert (HL : L <> 0) by (unfold L; lra). clearbody L. assert (Q : (b + t * (b + L * m - b) - b) / (a + t * (a + L - a) - a) = m) by (replace (b + t * (b + L * m - b) - b) with (t * L * m) by ring; replace (a + t * (a + L - a) - a) with (t * L) by ring; field; auto). exact Q.
Qed.

(** ** One of the results *)
Section One.
Variables (pl : polyline) (d : R) (raw dual : polyline).
Hypothesis (HC : clearRaw pl d) (HC' : clearRaw pl (- d)) (SP : simplePath pl) (Hd : d <> 0).
Hypothesis (Er : createRawOffsetPline pl d = Ok raw) (Ed : createRawOffsetPline pl (- d) = Ok dual).
Hypothesis (SBr : smallBulges raw) (Hne : forall k, pos (vert raw k 0) <> pos (vert raw k 1)).
Variables (A Nn : list (vec * R * vec)) (Xs : list vec).
Notation K := (keepsD pl d).
Hypothesis CD : coreData pl d raw A Nn Xs.
Variables (r : polyline) (O : list (vec * R * vec)).
Hypothesis (PA : Permutation (trace r ++ O) A) (CLr : closedPline r) (SBo : smallBulges r).
Notation W := (getWindingNumber r).

Let HX : forall q, doublePoint raw q -> In q Xs. Proof. apply CD. Qed.
Let HV : forall v, In v (vertexes raw) -> In (pos v) Xs. Proof. apply CD. Qed.

Lemma r_K q : onPath r q -> onPath raw q /\ K q.
Proof. intros H. apply onPath_trace in H. destruct H as (e & He & Oe). destruct CD as (_ & _ & HA & _). apply (HA e q); auto. apply (Permutation_in _ PA), in_or_app. now left. Qed.

Lemma pass_pos q e : 0 <= pass q e.
Proof. unfold pass. destruct (pdec _); lra. Qed.

Lemma pass_sum q l : 0 <= sumR (map (pass q) l).
Proof. induction l as [|e l IH]; cbn [map]; [cbn; lra|]. rewrite sumR_cons. pose proof (pass_pos q e). lra. Qed.

Lemma pass_in q e l : In e l -> pass q e <= sumR (map (pass q) l).
Proof. induction l as [|x l IH]; intros H; [destruct H|]. cbn [map]. rewrite sumR_cons. pose proof (pass_pos q x). pose proof (pass_sum q l). destruct H as [-> |H]; [lra|]. specialize (IH H). lra. Qed.

Lemma one_nonzero (f : nat -> R) k l : NoDup l -> (forall i, f i <= 1) -> (forall i, i <> k -> f i = 0) -> sumR (map f l) <= 1.
Proof.
  intros ND H1 H0. assert (Z : forall l', ~ In k l' -> sumR (map f l') = 0). { induction l' as [|i l' IH]; intros N; [reflexivity|]. cbn [map]. rewrite sumR_cons, IH, H0; [lra| |]; intros Q; apply N; [now left|now right]. }
  induction l as [|i l IH]; [cbn; lra|]. inversion ND. subst. cbn [map]. rewrite sumR_cons. destruct (Nat.eq_dec i k) as [->|N]; [rewrite Z by auto; specialize (H1 k); lra|]. rewrite (H0 i N). specialize (IH H4). lra.
Qed.

Lemma reach e q : In e (A ++ Nn) -> ~ In q Xs -> on3 e q -> pass q e = 1.
Proof.
  intros He NX Oe. destruct CD as (_ & _ & _ & _ & _ & _ & _ & _ & _ & St). destruct (St e He) as [S1 _]. unfold pass. destruct (pdec _) as [|N]; [reflexivity|]. exfalso. apply N.
  apply un3_on in Oe. apply onSeg_path in Oe. destruct Oe as (z & Hz & E). destruct (Req_dec z 0) as [->|Nz]; [|exists z; split; [lra|auto]].
  exfalso. apply NX. rewrite E. destruct e as [[p b] p']. cbn [un3 fst snd] in *. rewrite segPath_0. exact S1.
Qed.

(** a point of the result other than the special ones is on none of the other pieces *)
Lemma once q : ~ In q Xs -> onPath r q -> forall e, In e (O ++ Nn) -> ~ on3 e q.
Proof.
  intros NX Or e He Oe. destruct (r_K q Or) as [Oraw Kq]. destruct (lone pl d raw HC Er Xs HX HV q Oraw NX) as (k & tau & Hk & Ht & Eq & Lo).
  apply onPath_trace in Or. destruct Or as (e0 & He0 & Oe0).
  assert (Tot : Permutation (trace r ++ O ++ Nn) (A ++ Nn)) by (rewrite app_assoc; now apply Permutation_app_tail).
  assert (P0 : pass q e0 = 1) by (apply reach; auto; apply (Permutation_in _ Tot), in_or_app; now left). assert (P1 : pass q e = 1) by (apply reach; auto; apply (Permutation_in _ Tot), in_or_app; now right).
  pose proof CD as (_ & _ & _ & _ & _ & _ & _ & _ & Pass & _). specialize (Pass q). rewrite <- sumR_app, <- map_app, <- (sumR_perm _ _ (Permutation_map (pass q) Tot)), map_app, sumR_app in Pass.
  pose proof (pass_in q e0 _ He0). pose proof (pass_in q e _ He).
  assert (Up : sumR (map (pass q) (trace raw)) <= 1); [|lra]. pose proof (raw_cl pl d raw HC Er) as CL. unfold trace. rewrite map_map, <- (sumR_perm _ _ (Permutation_map _ (segs_perm raw CL))), map_map.
  set (f := fun i => if Nat.ltb i (length (vertexes raw)) then pass q (seg3 (vert raw i 0, vert raw i 1)) else 0).
  rewrite (sum_ext _ f). 2:{ intros i Hi. apply in_seq in Hi. unfold f. rewrite (proj2 (Nat.ltb_lt _ _)) by lia. reflexivity. }
  apply (one_nonzero f k); [apply seq_NoDup| |].
  - intros i. unfold f, pass. destruct (Nat.ltb _ _); [|lra]. destruct (pdec _); lra.
  - intros i Ni. unfold f. destruct (Nat.ltb_spec i (length (vertexes raw))) as [Hi|]; [|reflexivity]. unfold pass. destruct (pdec _) as [(z & Hz & E)|]; [|reflexivity]. exfalso. apply Ni. apply (Lo i z Hi); [lra|].
    rewrite <- Eq, <- E. unfold seg, seg3, un3, segPath. cbn [fst snd bulge pos]. reflexivity.
Qed.

Lemma r_turn q : ~ onPath r q -> turnT q (trace r) = 2 * PI * IZR (W q).
Proof.
  intros H. pose proof (windingSum_turn [r] q) as T. cbn [flat_map] in T. rewrite app_nil_r in T. rewrite T; [unfold windingSum; cbn [map fold_right]; now rewrite Z.add_0_r|repeat constructor; apply CLr| |intros p [<-|[]]; auto].
  intros e He. destruct CD as (Ok & _). apply Ok, (Permutation_in _ PA), in_or_app. now left.
Qed.

(** next to such a point the winding number of the result differs from that of the raw offset by a constant *)
Lemma r_shift q : ~ In q Xs -> onPath r q -> exists z de, 0 < de /\ forall q', dist q q' < de -> ~ onPath raw q' -> W q' = (getWindingNumber raw q' - z)%Z.
Proof.
  intros NX Or. pose proof (once q NX Or) as Off. pose proof CD as (OkA & OkN & HA & HN & _ & HT & _).
  assert (OkO : okT (O ++ Nn)). { apply okT_app; [|exact OkN]. intros e He. apply OkA, (Permutation_in _ PA), in_or_app. now right. }
  destruct (turnT_local (O ++ Nn) q OkO Off 1 ltac:(lra)) as (de & Hde & L).
  assert (E : forall q', ~ onPath raw q' -> turnT q' (O ++ Nn) = 2 * PI * IZR (getWindingNumber raw q' - W q')).
  { intros q' Oq. specialize (HT q' Oq). assert (Or' : ~ onPath r q') by (intros Q; apply Oq, (r_K q' Q)). pose proof (r_turn q' Or') as T. rewrite turnT_app. rewrite minus_IZR.
    assert (EA : turnT q' A = turnT q' (trace r) + turnT q' O) by (rewrite <- turnT_app; unfold turnT; symmetry; exact (sumR_perm _ _ (Permutation_map (turn1 q') PA))). lra. }
  destruct (dense pl d raw HC Er SBr Hne Xs HX HV q de NX Hde) as (q1 & H1 & O1). exists (getWindingNumber raw q1 - W q1)%Z, de. split; [auto|]. intros q' Hq Oq.
  destruct (L q' Hq) as [_ B]. destruct (L q1 H1) as [_ B1]. rewrite (E q' Oq) in B. rewrite (E q1 O1) in B1.
  assert (Z : (getWindingNumber raw q' - W q' = getWindingNumber raw q1 - W q1)%Z); [|lia]. set (x := (getWindingNumber raw q' - W q')%Z) in *. set (y := (getWindingNumber raw q1 - W q1)%Z) in *. clearbody x y.
  assert (D : Rabs (2 * PI * IZR (x - y)) <= 2). { rewrite minus_IZR. apply Rabs_le_between' in B, B1. apply Rabs_le. lra. }
  destruct (Z.eq_dec x y) as [|N]; [auto|]. exfalso. assert (1 <= Rabs (IZR (x - y))). { rewrite <- abs_IZR. apply (IZR_le 1). lia. } rewrite Rabs_mult, Rabs_pos_eq in D by (pose proof PI_RGT_0; lra). pose proof PI2_3_2. unfold PI2 in *. nra.
Qed.

(** *** The input is on one side of the result *)
Lemma off_r q : ~ K q -> ~ onPath r q.
Proof. intros N Q. apply N, (r_K q Q). Qed.

Lemma pl_off q : onPath pl q -> ~ K q.
Proof. intros Oq Kq. apply (clearBy_K pl d HC) in Kq. specialize (Kq q Oq). rewrite dist_zero in Kq. pose proof (Rabs_pos_lt d Hd). lra. Qed.

Definition cc : Z := W (seg pl 0 0).

Lemma pl_c q : onPath pl q -> W q = cc.
Proof.
  pose proof (in_closed pl d HC) as CL. pose proof CL as [_ H2]. set (n := length (vertexes pl)) in *.
  assert (On : forall k s, (k < n)%nat -> 0 <= s <= 1 -> onPath pl (seg pl k s)) by (intros k s Hk Hs; apply (onPath_sg pl CL); eauto).
  assert (Al : forall k s, (k < n)%nat -> 0 <= s <= 1 -> W (seg pl k s) = W (seg pl k 0)).
  { intros k s Hk Hs. apply (pred_connected (fun t => W (seg pl k t) = W (seg pl k 0)) 0 s); [lra| |reflexivity]. intros t Ht.
    destruct (C47_locally_constant r (seg pl k t) SBo (off_r _ (pl_off _ (On k t Hk ltac:(lra))))) as (e & He & L). destruct (seg_close pl k t e He) as (a & Ha & M). exists a. split; [auto|].
    intros x Hx Hxt. destruct (L _ (M x Hxt)) as [_ E]. rewrite E. tauto. }
  assert (V0 : forall k, (k < n)%nat -> W (seg pl k 0) = cc).
  { induction k as [|k IH]; intros Hk; [reflexivity|]. rewrite <- IH by lia. rewrite <- (Al k 1) by (lra || lia). rewrite (sg_next pl CL k) by lia. replace ((k + 1) mod length (vertexes pl))%nat with (S k); [reflexivity|].
    fold n. rewrite Nat.mod_small by lia. lia. }
  intros Oq. apply (onPath_sg pl CL) in Oq. destruct Oq as (k & s & Hk & Hs & ->). rewrite Al by auto. now apply V0.
Qed.

Lemma near_c q : ~ K q -> W q = cc.
Proof.
  intros NK. assert (Ex : exists p, onPath pl p /\ dist q p < Rabs d).
  { apply NNPP. intros N. apply NK, (clearBy_K pl d HC). intros p Hp. destruct (Rle_lt_dec (Rabs d) (dist q p)); auto. exfalso. apply N. eauto. }
  destruct Ex as (p & Op & Dp). rewrite <- (pl_c p Op). symmetry. apply (along_line (fun z => W z = W q) q p); [|reflexivity]. intros t Ht.
  assert (N : ~ K (lerp q p t)). { intros Q. apply (clearBy_K pl d HC) in Q. specialize (Q p Op). destruct (dist_lerp q p t Ht) as [_ E]. rewrite dist_sym', E in Q. pose proof (dist_nonneg q p). nra. }
  destruct (C47_locally_constant r _ SBo (off_r _ N)) as (e & He & L). exists e. split; [auto|]. intros q' Hq. destruct (L q' Hq) as [_ ->]. tauto.
Qed.

(** *** Crossing the result *)
Lemma near_bad q e : onPath r q -> 0 < e -> exists q', dist q q' < e /\ ~ onPath raw q' /\ ~ K q'.
Proof.
  intros Or He. destruct (r_K q Or) as [Oraw Kq]. destruct (raw_exact pl d raw HC Hd Er q Oraw Kq) as (_ & p & Op & Dp).
  set (t := Rmin (1 / 2) (e / (2 * Rabs d))). pose proof (Rabs_pos_lt d Hd) as Pd. assert (Ht : 0 < t <= 1 / 2 /\ t * Rabs d < e).
  { assert (0 < e / (2 * Rabs d)) by (apply Rdiv_lt_0_compat; lra). unfold t. split; [split; [apply Rmin_glb_lt; lra|apply Rmin_l]|]. apply Rle_lt_trans with (e / (2 * Rabs d) * Rabs d); [apply Rmult_le_compat_r; [lra|apply Rmin_r]|]. replace (e / (2 * Rabs d) * Rabs d) with (e / 2) by (field; lra). lra. }
  destruct (dist_lerp q p t ltac:(lra)) as [E1 E2]. rewrite Dp in *.
  assert (N : ~ K (lerp q p t)). { intros Q. apply (clearBy_K pl d HC) in Q. specialize (Q p Op). rewrite dist_sym', E2 in Q. nra. }
  destruct (nonkeep_open pl d HC _ N) as (e1 & He1 & M). destruct (off_all pl d raw HC Er SBr Hne Xs HX HV (lerp q p t) (Rmin e1 (e - t * Rabs d))) as (q' & Hq & _ & Oq); [apply Rmin_glb_lt; lra|].
  pose proof (Rmin_l e1 (e - t * Rabs d)). pose proof (Rmin_r e1 (e - t * Rabs d)). exists q'. split; [pose proof (dist_tri q (lerp q p t) q'); lra|]. split; [auto|]. apply M. lra.
Qed.

Lemma r_jump q : ~ In q Xs -> onPath r q -> exists de, 0 < de /\ forall q', dist q q' < de -> ~ onPath raw q' -> (K q' -> W q' = (cc + sense d)%Z) /\ (~ K q' -> W q' = cc).
Proof.
  intros NX Or. destruct (r_K q Or) as [Oraw Kq]. destruct (lone pl d raw HC Er Xs HX HV q Oraw NX) as (k & tau & Hk & Ht & Eq & Lo).
  assert (ND : ~ onPath dual q) by (intros Q; apply (C59_sides_apart pl d raw dual HC HC' SP Hd Er Ed q); [now apply (clearBy_K pl d HC)|split; auto]).
  destruct (r_shift q NX Or) as (z & d2 & H2 & Sh). subst q.
  destruct (raw_jump pl d raw dual HC HC' Hd Er Ed SBr k tau Hk Ht (Hne k) Lo Kq ND) as (u & d1 & H1 & J).
  exists (Rmin d1 d2). assert (Hm : 0 < Rmin d1 d2) by (now apply Rmin_glb_lt). split; [exact Hm|].
  destruct (near_bad _ (Rmin d1 d2) Or Hm) as (q1 & D1 & O1 & N1). pose proof (Rmin_l d1 d2). pose proof (Rmin_r d1 d2).
  destruct (J q1 ltac:(lra) O1) as [_ J1]. specialize (J1 N1). pose proof (Sh q1 ltac:(lra) O1) as S1. rewrite (near_c q1 N1) in S1. rewrite J1 in S1.
  intros q' Hq Oq. destruct (J q' ltac:(lra) Oq) as [JK JN]. pose proof (Sh q' ltac:(lra) Oq) as S'. unfold sense. split; intros HK.
  - rewrite S', (JK HK), S1. destruct (Rlt_dec 0 d) as [L|L]; [rewrite (proj2 (Rltb_spec 0 d)) by lra|rewrite (proj2 (Rltb_false 0 d)) by lra]; lia.
  - now apply near_c.
Qed.

Lemma r_vals q : ~ In q Xs -> onPath r q -> exists de, 0 < de /\ forall q', dist q q' < de -> ~ onPath r q' -> W q' = cc \/ W q' = (cc + sense d)%Z.
Proof.
  intros NX Or. destruct (r_jump q NX Or) as (de & Hde & J). exists de. split; [auto|]. intros q' Hq Oq. destruct (C47_locally_constant r q' SBo Oq) as (e & He & L).
  destruct (off_all pl d raw HC Er SBr Hne Xs HX HV q' (Rmin e (de - dist q q'))) as (q2 & H2 & _ & O2); [apply Rmin_glb_lt; lra|]. pose proof (Rmin_l e (de - dist q q')). pose proof (Rmin_r e (de - dist q q')).
  destruct (L q2 ltac:(lra)) as [_ E]. rewrite <- E. destruct (J q2) as [JK JN]; [pose proof (dist_tri q q' q2); lra|auto|]. destruct (classic (K q2)); auto.
Qed.

Lemma r_both q : ~ In q Xs -> onPath r q -> (exists q1, ~ onPath r q1 /\ W q1 = cc) /\ exists q2, ~ onPath r q2 /\ W q2 = (cc + sense d)%Z.
Proof.
  intros NX Or. destruct (r_K q Or) as [Oraw Kq]. destruct (lone pl d raw HC Er Xs HX HV q Oraw NX) as (k & tau & Hk & Ht & Eq & Lo). pose proof (raw_cl pl d raw HC Er) as CL.
  destruct (r_shift q NX Or) as (z & d2 & H2 & Sh). destruct (r_vals q NX Or) as (d1 & H1 & V). subst q.
  destruct (germ_lone raw CL SBr k tau Hk Ht (Hne k) Lo) as (rest & G). destruct (circle_values _ _ _ _ _ _ _ _ _ G) as (ra & Ha & Va).
  set (rr := Rmin (Rmin d1 d2) ra / 2). assert (Hr : 0 < rr /\ rr < d1 /\ rr < d2 /\ rr < ra).
  { unfold rr. pose proof (Rmin_l (Rmin d1 d2) ra). pose proof (Rmin_r (Rmin d1 d2) ra). pose proof (Rmin_l d1 d2). pose proof (Rmin_r d1 d2). assert (0 < Rmin (Rmin d1 d2) ra) by (repeat apply Rmin_glb_lt; auto). lra. }
  destruct (Va rr ltac:(lra)) as (u & _ & (qa & Ea & Oa & Wa) & (qb & Eb & Ob & Wb)).
  assert (Na : ~ onPath r qa) by (intros Q; apply Oa, (r_K qa Q)). assert (Nb : ~ onPath r qb) by (intros Q; apply Ob, (r_K qb Q)).
  pose proof (Sh qa ltac:(lra) Oa) as Sa. pose proof (Sh qb ltac:(lra) Ob) as Sb. pose proof (V qa ltac:(lra) Na) as Xa. pose proof (V qb ltac:(lra) Nb) as Xb.
  assert (sense d = 1%Z \/ sense d = (-1)%Z) by (unfold sense; destruct (Rlt_dec 0 d); auto).
  destruct (Z.eq_dec (W qa) cc) as [Za|Za].
  - split; [exists qa; auto|exists qb; split; [auto|lia]].
  - split; [exists qb; split; [auto|lia]|exists qa; split; [auto|lia]].
Qed.

(** *** Only two values *)
Definition valued (v : Z) (q : vec) : Prop := ~ onPath r q /\ W q = v.

Lemma valued_local v q : v <> cc -> v <> (cc + sense d)%Z -> ~ In q Xs -> exists e, 0 < e /\ forall q', dist q q' < e -> (valued v q' <-> valued v q).
Proof.
  intros N1 N2 NX. destruct (classic (onPath r q)) as [Or|Or].
  - destruct (r_vals q NX Or) as (de & Hde & V). exists de. split; [auto|]. intros q' Hq. unfold valued. split; [|tauto]. intros [O' E]. destruct (V q' Hq O'); congruence.
  - destruct (C47_locally_constant r q SBo Or) as (e & He & L). exists e. split; [auto|]. intros q' Hq. destruct (L q' Hq) as [O' E]. unfold valued. rewrite E. tauto.
Qed.

Lemma stray v z : v <> cc -> v <> (cc + sense d)%Z -> ~ In z Xs -> (valued v z <-> v = 0%Z).
Proof.
  intros N1 N2 NX. destruct (C47_far_zero r SBo) as (B & _ & Far). destruct (escape z Xs B NX) as (F & HF & Av). destruct (Far F HF) as [OF WF].
  assert (EF : valued v F <-> v = 0%Z) by (unfold valued; rewrite WF; split; [intros [_ <-]; auto|intros ->; auto]). rewrite <- EF.
  assert (L : forall t, 0 <= t <= 1 -> exists e, 0 < e /\ forall q', dist (lerp z F t) q' < e -> (valued v q' <-> valued v (lerp z F t))) by (intros t Ht; apply valued_local; auto).
  split; [apply (along_line (valued v)), L|]. intros VF. apply NNPP. intros NV. revert VF. apply (along_line (fun q => ~ valued v q) z F); [|exact NV].
  intros t Ht. destruct (L t Ht) as (e & He & H). exists e. split; [auto|]. intros q' Hq. now rewrite (H q' Hq).
Qed.

Lemma shake q : ~ onPath r q -> exists q', ~ In q' Xs /\ ~ onPath r q' /\ W q' = W q.
Proof.
  intros Oq. destruct (C47_locally_constant r q SBo Oq) as (e & He & L). destruct (off_all pl d raw HC Er SBr Hne Xs HX HV q e He) as (q' & Hq & NX & _). exists q'. split; [auto|]. now apply L.
Qed.

Lemma r_point : exists q, ~ In q Xs /\ onPath r q.
Proof.
  destruct (trace r) as [|e l] eqn:Et.
  { exfalso. destruct CLr as [Hc H2]. destruct (seg_at r 0 Hc H2 ltac:(lia)) as (_ & _ & I). apply (in_map seg3) in I. unfold trace in Et. rewrite Et in I. destruct I. }
  assert (He : In e (trace r)) by (rewrite Et; apply in_eq). assert (HeA : In e (A ++ Nn)) by (apply in_or_app; left; apply (Permutation_in _ PA), in_or_app; left; apply in_eq).
  pose proof CD as (OkA & OkN & _ & _ & _ & _ & _ & _ & _ & St). destruct (St e HeA) as [_ Ne]. assert (Be : ok3 e) by (apply (okT_app A Nn OkA OkN); auto).
  set (f := segPath (fst (un3 e)) (snd (un3 e))).
  assert (Inj : forall s t, 0 <= s <= 1 -> 0 <= t <= 1 -> f s = f t -> s = t) by (intros s t Hs Ht E; apply (segPath_inj (fst (un3 e)) (snd (un3 e))); auto; destruct e as [[a b] a']; [exact Be|exact Ne]).
  assert (Pre : forall X : list vec, exists Z : list R, forall z, 0 <= z <= 1 -> In (f z) X -> In z Z).
  { induction X as [|x X (Z & IH)]; [exists []; intros z _ []|]. destruct (classic (exists z, 0 <= z <= 1 /\ f z = x)) as [(z0 & H0 & E0)|N].
    - exists (z0 :: Z). intros z Hz [E|Hin]; [left; apply Inj; auto; congruence|right; auto].
    - exists Z. intros z Hz [E|Hin]; [exfalso; apply N; eauto|auto]. }
  destruct (Pre Xs) as (Z & HZ). destruct (fresh_between Z 0 1 ltac:(lra)) as (z & Hz & Nz). exists (f z). split; [intros Q; apply Nz, HZ; auto; lra|].
  apply onPath_trace. exists e. split; [auto|]. apply un3_on, onSeg_path. exists z. split; [lra|reflexivity].
Qed.

Lemma two_valued : exists w, (w = 1%Z \/ w = (-1)%Z) /\ (forall q, ~ onPath r q -> W q = 0%Z \/ W q = w) /\ (exists q, ~ onPath r q /\ W q = w) /\ (cc = 0%Z -> w = sense d).
Proof.
  destruct r_point as (x & NX & Ox). destruct (r_both x NX Ox) as ((q1 & O1 & W1) & q2 & O2 & W2). assert (S : sense d = 1%Z \/ sense d = (-1)%Z) by (unfold sense; destruct (Rlt_dec 0 d); auto).
  assert (Z0 : cc = 0%Z \/ (cc + sense d)%Z = 0%Z).
  { apply NNPP. intros N. destruct (shake q1 O1) as (q' & NX' & O' & W'). destruct (stray 0%Z q') as [_ S0]; [intros Q; apply N; left; congruence|intros Q; apply N; right; congruence|auto|]. destruct (S0 eq_refl) as [_ E]. apply N. left. congruence. }
  assert (V : forall q, ~ onPath r q -> W q = cc \/ W q = (cc + sense d)%Z).
  { intros q Oq. apply NNPP. intros N. destruct (shake q Oq) as (q' & NX' & O' & W'). destruct (stray (W q) q') as [S0 _]; [tauto|tauto|auto|]. assert (W q = 0%Z) by (apply S0; split; auto). apply N. destruct Z0; [left|right]; congruence. }
  destruct Z0 as [Z0|Z0].
  - exists (sense d). split; [auto|]. split; [intros q Oq; destruct (V q Oq); lia|]. split; [exists q2; split; [auto|lia]|auto].
  - exists cc. split; [lia|]. split; [intros q Oq; destruct (V q Oq); lia|]. split; [exists q1; auto|lia].
Qed.

(** *** Offsets to the inside do not enclose the input *)
Lemma inner_c : 0 < d * getArea pl -> cc = 0%Z.
Proof.
  intros Hin. apply NNPP. intros Nc. pose proof (in_small pl d HC) as Sm. pose proof (in_closed pl d HC) as CL.
  destruct (C47_far_zero r SBo) as (B1 & P1 & F1). destruct (C47_far_zero pl Sm) as (B2 & P2 & F2). set (F := mkV (B1 + B2 + 1) 0).
  assert (HF : B1 + B2 < dist (mkV 0 0) F). { rewrite dist_sqd. replace (sqd (mkV 0 0) F) with ((B1 + B2 + 1) * (B1 + B2 + 1)) by (unfold sqd, F; cbn [vx vy]; rring). rewrite sqrt_square; lra. }
  destruct (F1 F ltac:(lra)) as [_ WF]. destruct (F2 F ltac:(lra)) as [OF VF].
  set (B := fun q => outsideOf pl q /\ W q = 0%Z). set (p := seg pl 0 0).
  assert (Op : onPath pl p) by (apply (onPath_sg pl CL); exists 0%nat, 0; split; [destruct CL; lia|split; [lra|reflexivity]]).
  assert (N : ~ B p) by (intros [[Q _] _]; contradiction). apply N. apply (along_line B F p); [|split; [split; auto|auto]].
  intros t Ht. set (q := lerp F p t). destruct (classic (onPath pl q)) as [Oq|Oq].
  - destruct (nonkeep_open pl d HC q (pl_off q Oq)) as (e & He & M). exists e. split; [auto|]. intros q' Hq. unfold B. rewrite (near_c q' (M q' Hq)). unfold outsideOf. tauto.
  - destruct (C47_locally_constant pl q Sm Oq) as (e & He & L). destruct (classic (onPath r q)) as [Or|Or].
    + destruct (r_K q Or) as [Oraw Kq]. pose proof (raw_onSide pl d raw HC Hd SP Er q Oraw (proj2 (clearBy_K pl d HC q) Kq)) as S. unfold onSide in S. destruct (Rlt_dec 0 (d * getArea pl)); [|contradiction]. destruct S as [_ S].
      exists e. split; [auto|]. intros q' Hq. destruct (L q' Hq) as [O' E]. unfold B, outsideOf. rewrite E. tauto.
    + destruct (C47_locally_constant r q SBo Or) as (e2 & He2 & L2). exists (Rmin e e2). split; [now apply Rmin_glb_lt|]. intros q' Hq. pose proof (Rmin_l e e2). pose proof (Rmin_r e e2).
      destruct (L q' ltac:(lra)) as [O' E]. destruct (L2 q' ltac:(lra)) as [O2 E2]. unfold B, outsideOf. rewrite E, E2. tauto.
Qed.

Theorem one_loop : getArea r <> 0 /\ simpleLoop r /\ (0 < d * getArea pl -> 0 < d * getArea r).
Proof.
  destruct two_valued as (w & Hw & V & (q0 & O0 & W0) & Cw). pose proof (area_sign r CLr SBo w q0 Hw V O0 W0) as S.
  assert (N : getArea r <> 0) by (intros E; rewrite E in S; lra). split; [exact N|]. split.
  - assert (Ew : w = orient r) by (unfold orient; destruct Hw as [-> | ->], (Rlt_dec (getArea r) 0); auto; lra). intros q Oq. rewrite <- Ew. auto.
  - intros Hin. rewrite (Cw (inner_c Hin)) in S. unfold sense in S. destruct (Rlt_dec 0 d) as [L|L]; [apply Rmult_lt_0_compat; lra|]. assert (d < 0) by lra. nra.
Qed.
End One.

(** ** C68 *)
Section Result.
Context {SL : StdLib} {SLaws : StdLaws SL}.
Variables (pl : polyline) (d : R) (h : bool) (raw dual : polyline).
Hypothesis (HC : clearRaw pl d) (HC' : clearRaw pl (- d)) (SP : simplePath pl) (Hix : indexable pl) (Hd : 1 / 10000 <= Rabs d).
Hypothesis Hn : (48 * Z.of_nat (length (vertexes pl)) * Z.of_nat (length (vertexes pl)) <= 2 ^ 24)%Z.
Hypothesis (Er : createRawOffsetPline pl d = Ok raw) (Ed : createRawOffsetPline pl (- d) = Ok dual) (Hspr : spread raw) (OP : offsetPosition h raw dual).
Hypothesis (Dec : decisive pl raw d (cutPoint h raw dual)) (NF : noFalseHits pl raw d) (Tiny : h = true \/ forall l, part raw (cutPoint h raw dual) l -> ~ tinyLoop l).

Lemma d_ne : d <> 0.
Proof. intros E. rewrite E, Rabs_R0 in Hd. lra. Qed.

(** Under the conditions of C67: each single result encloses an area (its signed area is not 0); it winds exactly once around the points it encloses, all in the sense given by
    the sign of its area, and not around the others; if the offset is to the inside of the input, it runs in the same sense as the input; and two results
    have at most finitely many points in common. *)
Theorem C68_offset_loops : exists rs, parallelOffset pl d h = Ok rs /\
    (forall r, In r rs -> closedPline r /\ smallBulges r /\ getArea r <> 0 /\ simpleLoop r /\ (0 < d * getArea pl -> 0 < getArea pl * getArea r)) /\
    exists Xs : list vec, forall l1 r l2 r' q, rs = l1 ++ r :: l2 -> In r' (l1 ++ l2) -> onPath r q -> onPath r' q -> In q Xs.
Proof.
  destruct (C67_offset_region pl d h raw dual) as (rs & E & Cl & _); auto.
  destruct (offset_core pl d h raw dual) as (rs' & A & Nn & Xs & E' & Hrs & Hne & CD & T & _); auto. assert (rs' = rs) by congruence. subst rs'. exists rs. split; [exact E|].
  assert (Sp : forall l1 r l2, rs = l1 ++ r :: l2 -> Permutation (trace r ++ flat_map trace (l1 ++ l2)) A).
  { intros l1 r l2 ->. eapply perm_trans; [|exact T]. rewrite !flat_map_app. cbn [flat_map]. rewrite !app_assoc. apply Permutation_app_tail, Permutation_app_comm. }
  split.
  - intros r Hr. destruct (proj1 (List.Forall_forall _ _) Cl r Hr) as [Cr Sr]. destruct (in_split r rs Hr) as (l1 & l2 & Es). split; [auto|]. split; [auto|].
    destruct (one_loop pl d raw dual HC HC' SP d_ne Er Ed Hrs Hne A Nn Xs CD r _ (Sp l1 r l2 Es) Cr Sr) as (N & S & I). split; [auto|]. split; [auto|].
    intros P. specialize (I P). destruct (Rlt_dec 0 d); [|pose proof d_ne]; nra.
  - exists Xs. intros l1 r l2 r' q Es Hr' Or Or'. apply NNPP. intros NX. apply onPath_trace in Or'. destruct Or' as (e & He & Oe).
    refine (once pl d raw HC Er A Nn Xs CD r _ (Sp l1 r l2 Es) q NX Or e _ Oe). apply in_or_app. left. apply in_flat_map. eauto.
Qed.

Lemma plane_const c M : 0 <= M -> planeIntegral (fun _ => c) M (c * (2 * M) * (2 * M)).
Proof.
  intros HM. exists []. split; [intros; apply ex_RInt_const|]. apply (is_RInt_ext (V := R_NormedModule) (fun _ => (M - - M) * c)); [|].
  - intros y _. symmetry. apply (is_RInt_unique (V := R_CompleteNormedModule)). apply is_RInt_c.
  - replace (c * (2 * M) * (2 * M)) with ((M - - M) * ((M - - M) * c)) by ring. apply is_RInt_c.
Qed.

(** a point of the left-over region off the raw offset is strictly farther than |d| from the input *)
Lemma strictly q : leftOver pl d q -> ~ onPath raw q -> forall p, onPath pl p -> Rabs d < dist q p.
Proof.
  intros [C S] O p Op. destruct (Rle_lt_or_eq_dec _ _ (C p Op)) as [L|Eq]; [exact L|]. exfalso. assert (At : atDistance pl (Rabs d) q) by (split; [exact C|exists p; auto]).
  destruct (C58_curve_on_raw pl d raw dual q HC HC' d_ne Er Ed At) as [Q|Q]; [contradiction|]. apply (sides_differ pl d q (in_closed pl d HC) (in_small pl d HC) SP d_ne S).
  apply (raw_onSide pl (- d) dual); auto; [pose proof d_ne; lra|now rewrite Rabs_Ropp].
Qed.

(** The signed areas of the results add up to the area of the left-over region (in the sense in which they run around it; for an offset to the outside, the area of the part of it in
    a large enough square is the area of the square less what the results enclose). *)
Theorem C68_left_over_area M : 0 <= M -> withinSquare raw M -> exists rs, parallelOffset pl d h = Ok rs /\
  planeIntegral (fun q => if pdec (leftOver pl d q) then 1 else 0) M (IZR (unboundedSide pl d) * (2 * M) * (2 * M) + IZR (sense d) * sumR (map getArea rs)).
Proof.
  intros HM Sq. destruct (C67_offset_region pl d h raw dual) as (rs & E & Cl & On & _ & Wn); auto. exists rs. split; [exact E|].
  destruct (offset_core pl d h raw dual) as (rs' & A & Nn & Xs & E' & Hrs & Hne & (_ & _ & HA & _) & T & _); auto. assert (rs' = rs) by congruence. subst rs'. pose proof (raw_cl pl d raw HC Er) as CLr.
  assert (Sub : forall r q, In r rs -> onPath r q -> onPath raw q). { intros r q Hr Or. apply onPath_trace in Or. destruct Or as (e & He & Oe). apply (HA e q); [|auto]. apply (Permutation_in _ T), in_flat_map. eauto. }
  assert (SM : forall p, In p rs -> isClosed p = true /\ smallBulges p /\ withinSquare p M).
  { intros p Hp. destruct (proj1 (List.Forall_forall _ _) Cl p Hp) as [Cp Sp]. split; [apply Cp|]. split; [auto|]. intros q Oq. apply Sq. eauto. }
  pose proof (plane_plus _ _ M _ _ HM (plane_const (IZR (unboundedSide pl d)) M HM) (plane_scal _ M _ (IZR (sense d)) HM (windingSum_integral rs M HM SM))) as I.
  apply (plane_ext _ _ M _ (onPath raw) HM) with (3 := I); [|apply (path_thin raw M); auto; apply CLr].
  intros q Oq. rewrite <- mult_IZR, <- plus_IZR. assert (Off : forall r, In r rs -> ~ onPath r q) by (intros r Hr Q; apply Oq; eauto). destruct (Wn q Off) as [W1 W0].
  destruct (pdec _) as [L|L]; [|now rewrite (W0 L)]. rewrite W1; [reflexivity|now apply strictly|apply L].
Qed.
End Result.

(** ** The chamfered square of PropsOffsetExample *)
Example C68_chamfer {SL : StdLib} {SLaws : StdLaws SL} : exists rs, parallelOffset chamfer 15 false = Ok rs /\
  (forall r, In r rs -> closedPline r /\ smallBulges r /\ getArea r <> 0 /\ simpleLoop r /\ (0 < 15 * getArea chamfer -> 0 < getArea chamfer * getArea r)) /\
  exists M, planeIntegral (fun q => if pdec (leftOver chamfer 15 q) then 1 else 0) M (IZR (unboundedSide chamfer 15) * (2 * M) * (2 * M) + IZR (sense 15) * sumR (map getArea rs)).
Proof.
  destruct C67_chamfer as (raw & dual & H1 & H2 & H3 & H4 & H5 & H6 & H7 & H8 & H9 & H10 & H11 & H12 & H13 & _).
  destruct (C68_offset_loops chamfer 15 false raw dual) as (rs & E & L & _); auto. exists rs. split; [exact E|]. split; [exact L|].
  destruct (path_bounded raw (op_arcs _ _ _ H10)) as (M & HM & Q). exists M. destruct (C68_left_over_area chamfer 15 false raw dual H3 H4 H5 H6 H7 H8 H1 H2 H9 H10 H11 H12 (or_intror H13) M ltac:(lra) Q) as (rs' & E' & I).
  assert (rs' = rs) by congruence. now subst rs'.
Qed.
