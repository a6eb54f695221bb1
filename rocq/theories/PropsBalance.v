(** * Winding numbers of a boundary made of parts of two polylines *)
From Coq Require Import ZArith Reals Lra Lia Psatz List Bool Arith Permutation Classical ClassicalDedekindReals.
From Coquelicot Require Import Coquelicot.
From Verif Require Import Base Num MathUtils PlineSegment SpatialIndex Polyline RGeom Spec PropsMath ArcGeom Polar PropsPolyline Turning PropsWinding PropsRegion PropsPieces PropsBoolOps PropsCover PropsEuler.
Import ListNotations.
Open Scope R_scope.

(** ** Turning of traces *)
Definition un3 (e : vec * R * vec) : vertex * vertex := let '(a, b, c) := e in (mkVtx a b, mkVtx c 0).
Definition turn1 (p : vec) (e : vec * R * vec) : R := RInt (angSpeed p (segPath (fst (un3 e)) (snd (un3 e)))) 0 1.
Definition turnT (p : vec) (l : list (vec * R * vec)) : R := sumR (map (turn1 p) l).
Definition ok3 (e : vec * R * vec) : Prop := Rabs (snd (fst e)) <= 1.
Definition offT (l : list (vec * R * vec)) (q : vec) : Prop := forall e, In e l -> ~ on3 e q.
Definition okT (l : list (vec * R * vec)) : Prop := forall e, In e l -> ok3 e.

Lemma turn1_seg3 p v1 v2 : turn1 p (seg3 (v1, v2)) = RInt (angSpeed p (segPath v1 v2)) 0 1.
Proof. destruct v1, v2. reflexivity. Qed.

Lemma turnT_sum p l : turnT p l = turnSum (map un3 l) p.
Proof. unfold turnT, turnSum, sumR. now rewrite map_map. Qed.

Lemma turnT_path p l : turnT p (map seg3 l) = turnSum l p.
Proof. unfold turnT, turnSum, sumR. rewrite map_map. apply sum_ext. intros [[a b] [c e]] _. reflexivity. Qed.

Lemma turnT_app p l l' : turnT p (l ++ l') = turnT p l + turnT p l'.
Proof. unfold turnT. now rewrite map_app, sumR_app. Qed.

Lemma un3_on e q : onSeg (fst (un3 e)) (snd (un3 e)) q <-> on3 e q.
Proof. destruct e as [[a b] c]. reflexivity. Qed.

Lemma turn1_value p e : ok3 e -> ~ on3 e p -> turn1 p e = angU p (snd e) - angU p (fst (fst e)) + 2 * PI * IZR (segWinding (fst (un3 e)) (snd (un3 e)) p).
Proof.
  intros H O. destruct e as [[a b] c]. apply (is_RInt_unique (V := R_CompleteNormedModule)). exact (seg_turn (mkVtx a b) (mkVtx c 0) p (segPath (mkVtx a b) (mkVtx c 0)) H (segPath_ok _ _) O).
Qed.

Lemma on3_rev' e q : on3 (rev3 e) q <-> on3 e q.
Proof. split; [apply on3_rev|]. intros H. apply on3_rev. now rewrite rev3_rev3. Qed.

Lemma ok3_rev e : ok3 (rev3 e) <-> ok3 e.
Proof. destruct e as [[a b] c]. unfold ok3, rev3. cbn [fst snd]. now rewrite Rabs_Ropp. Qed.

Lemma turn1_rev p e : ok3 e -> ~ on3 e p -> turn1 p (rev3 e) = - turn1 p e.
Proof.
  intros H O. rewrite !turn1_value; [|auto|auto|now apply ok3_rev|now rewrite on3_rev']. destruct e as [[a b] c]. cbn [rev3 un3 fst snd] in *. rewrite (segWinding_rev a c b 0 0 p H O), opp_IZR. ring.
Qed.

Lemma turnT_rev p l : okT l -> offT l p -> turnT p (map rev3 l) = - turnT p l.
Proof.
  intros H O. unfold turnT. rewrite map_map, <- sumR_map_opp, map_map. apply sum_ext. intros e He. apply turn1_rev; auto.
Qed.

(** *** Congruence *)
Definition netT (l : list (vec * R * vec)) (x : vec) : R := sumR (map (fun e => ind x (fst (fst e)) - ind x (snd e)) l).

Lemma netT_app l l' x : netT (l ++ l') x = netT l x + netT l' x.
Proof. unfold netT. now rewrite map_app, sumR_app. Qed.

Lemma netT_rev l x : netT (map rev3 l) x = - netT l x.
Proof. unfold netT. rewrite map_map, <- sumR_map_opp, map_map. apply sum_ext. intros [[a b] c] _. cbn. lra. Qed.

Lemma netT_perm l l' x : Permutation l l' -> netT l x = netT l' x.
Proof. intros P. apply sumR_perm, Permutation_map, P. Qed.

Lemma ind_int x y : exists z, ind x y = IZR z.
Proof. unfold ind. destruct (veq_dec x y); [now exists 1%Z|now exists 0%Z]. Qed.

Lemma netT_int l x : exists z, netT l x = IZR z.
Proof.
  induction l as [|e l (z & IH)]; [now exists 0%Z|]. destruct (ind_int x (fst (fst e))) as (a & Ea). destruct (ind_int x (snd e)) as (b & Eb). exists (a - b + z)%Z.
  change (ind x (fst (fst e)) - ind x (snd e) + netT l x = IZR (a - b + z)). rewrite Ea, Eb, IH, plus_IZR, minus_IZR. reflexivity.
Qed.

Lemma sum_ind (L : list vec) (f : vec -> R) y : NoDup L -> In y L -> sumR (map (fun x => ind x y * f x) L) = f y.
Proof.
  induction L as [|x L IH]; intros Nd Hin; [destruct Hin|]. inversion Nd as [|? ? N1 N2]. subst. cbn [map]. rewrite sumR_cons. destruct Hin as [->|Hin].
  - rewrite ind_same, (sum_zero _ L); [lra|]. intros z Hz. rewrite ind_ne; [lra|]. intros ->. contradiction.
  - rewrite (IH N2 Hin), ind_ne; [lra|]. intros ->. contradiction.
Qed.

Lemma ends_sum (L : list vec) (f : vec -> R) l : NoDup L -> (forall e, In e l -> In (fst (fst e)) L /\ In (snd e) L) ->
  sumR (map (fun e => f (snd e) - f (fst (fst e))) l) = - sumR (map (fun x => netT l x * f x) L).
Proof.
  intros Nd. induction l as [|e l IH]; intros H.
  - cbn [map]. rewrite sumR_nil, (sum_zero _ L); [lra|]. intros x _. unfold netT. cbn. lra.
  - cbn [map]. rewrite sumR_cons, IH by (intros; apply H; now right). destruct (H e (or_introl eq_refl)) as [H1 H2].
    rewrite <- (sum_ind L f _ Nd H1), <- (sum_ind L f _ Nd H2).
    assert (E : sumR (map (fun x => netT (e :: l) x * f x) L) = sumR (map (fun x => ind x (fst (fst e)) * f x) L) + (- sumR (map (fun x => ind x (snd e) * f x) L) + sumR (map (fun x => netT l x * f x) L))); [|lra].
    rewrite <- (sumR_map_opp), map_map, <- !sum_add. apply sum_ext. intros x _. change (netT (e :: l) x) with (ind x (fst (fst e)) - ind x (snd e) + netT l x). ring.
Qed.

Lemma turnT_cong (L : list vec) l p : NoDup L -> (forall e, In e l -> In (fst (fst e)) L /\ In (snd e) L) -> okT l -> offT l p ->
  congruent (- sumR (map (fun x => netT l x * angU p x) L)) (turnT p l).
Proof.
  intros Nd HL Hok Hoff. rewrite <- (ends_sum L (angU p) l Nd HL). clear Nd HL. induction l as [|e l IH]; [exists 0%Z; cbn; lra|].
  destruct IH as (k & Ek); [intros x Hx; apply Hok; now right|intros x Hx; apply Hoff; now right|].
  exists (segWinding (fst (un3 e)) (snd (un3 e)) p + k)%Z. unfold turnT in *. cbn [map]. rewrite !sumR_cons, Ek, (turn1_value p e) by (first [apply Hok|apply Hoff]; now left). rewrite plus_IZR. ring.
Qed.

(** *** Continuity *)
Lemma turnT_local l p : okT l -> offT l p -> forall e, 0 < e -> exists d, 0 < d /\ forall q, dist p q < d -> offT l q /\ Rabs (turnT q l - turnT p l) <= e.
Proof.
  intros Hok Hoff e He. destruct (sum_local (map un3 l) p) with (e := e) as (d & Hd & H); [|auto|].
  - intros v1 v2 Hin. apply in_map_iff in Hin. destruct Hin as (x & E & Hx). pose proof (Hok x Hx) as K. pose proof (Hoff x Hx) as O. destruct x as [[a b] c]. injection E as <- <-. split; [exact K|exact O].
  - exists d. split; [auto|]. intros q Hq. destruct (H q Hq) as [H1 H2]. rewrite !turnT_sum. split; [|auto]. intros x Hx O. apply un3_on in O. destruct x as [[a b] c]. apply (H1 (mkVtx a b) (mkVtx c 0)); [apply (in_map un3 _ _ Hx)|exact O].
Qed.

Lemma turnT_far l : okT l -> forall e, 0 < e -> exists B, 0 < B /\ forall q, B < dist (mkV 0 0) q -> Rabs (turnT q l) <= e.
Proof.
  intros Hok e He. destruct (sum_far (map un3 l)) with (e := e) as (B & HB & H); [|auto|].
  - intros v1 v2 Hin. apply in_map_iff in Hin. destruct Hin as (x & E & Hx). pose proof (Hok x Hx) as K. destruct x as [[a b] c]. injection E as <- <-. exact K.
  - exists B. split; [auto|]. intros q Hq. destruct (H q Hq) as [_ H2]. now rewrite turnT_sum.
Qed.

(** ** Functions with values in a lattice *)
Lemma lattice_const (f : R -> R) a b : (forall t, continuity_pt f t) -> (forall t, exists k : Z, f t = 2 * PI * IZR k) -> f a = f b.
Proof.
  intros Hc Hk. assert (G : forall a b, ~ f a < f b).
  { clear a b. intros a b L. destruct (Hk a) as (ka & Ea). destruct (Hk b) as (kb & Eb). pose proof PI_RGT_0 as HP.
    assert (K : (ka + 1 <= kb)%Z). { assert (IZR ka < IZR kb) as Q by (rewrite Ea, Eb in L; nra). apply lt_IZR in Q. lia. }
    apply IZR_le in K. rewrite plus_IZR in K. destruct (IVT_gen f a b (2 * PI * IZR ka + PI)) as (x & _ & Ex); [exact Hc| |].
    - rewrite Rmin_left, Rmax_right by lra. rewrite Ea, Eb. nra.
    - destruct (Hk x) as (kx & E). rewrite E in Ex. assert (E2 : 2 * IZR kx = 2 * IZR ka + 1) by (apply Rmult_eq_reg_l with PI; [|lra]; lra).
      rewrite <- !mult_IZR, <- plus_IZR in E2. apply eq_IZR in E2. lia. }
  destruct (Rtotal_order (f a) (f b)) as [H|[H|H]]; [destruct (G a b H)|auto|destruct (G b a H)].
Qed.

(** ** Angles seen from a circle *)
Definition onCircle (c : vec) (r th : R) : vec := mkV (vx c + r * cos th) (vy c + r * sin th).

(** the direction of a point outside the circle, continuously *)
Lemma outside_angle c r x : 0 < r -> r < dist c x -> exists lam : R -> R, (forall th, continuity_pt lam th) /\ (forall th, congruent (angU (onCircle c r th) x) (lam th)) /\ forall th, lam (th + 2 * PI) = lam th.
Proof.
  intros Hr Hx. set (a := vx x - vx c). set (b := vy x - vy c). set (D := dist c x) in *.
  assert (ED : a * a + b * b = D * D). { unfold a, b, D, dist. rewrite sqrt_sqrt; [ring|]. apply Rplus_le_le_0_compat; apply pow2_ge_0. }
  set (U := fun th => (a - r * cos th) * a + (b - r * sin th) * b). set (V := fun th => (b - r * sin th) * a - (a - r * cos th) * b).
  assert (HU : forall th, 0 < U th).
  { intros th. unfold U. assert (E : a * cos th + b * sin th <= D). { assert ((a * cos th + b * sin th) * (a * cos th + b * sin th) <= D * D). { rewrite <- ED. pose proof (sin2_cos2 th) as Q. unfold Rsqr in Q. pose proof (Rle_0_sqr (a * sin th - b * cos th)) as Q2. unfold Rsqr in Q2.
        assert (a * a + b * b = (a * a + b * b) * (sin th * sin th + cos th * cos th)) as -> by (rewrite Q; ring). lra. }
      apply Rnot_lt_le. intros L. nra. }
    replace ((a - r * cos th) * a + (b - r * sin th) * b) with (D * D - r * (a * cos th + b * sin th)) by (rewrite <- ED; ring). nra. }
  exists (fun th => angU c x + atan (V th / U th)). split; [|split].
  - intros th. apply continuity_pt_filterlim. apply (ex_derive_continuous (V := R_NormedModule) (fun th => angU c x + atan (V th / U th)) th). specialize (HU th). unfold U, V in *. auto_derive. lra.
  - intros th. assert (Nx : x <> c) by (intros ->; unfold D, dist in Hx; replace ((vx c - vx c) ^ 2 + (vy c - vy c) ^ 2) with 0 in Hx by ring; rewrite sqrt_0 in Hx; lra).
    destruct (angU_polar c x Nx) as (P1 & P2 & P3). fold a b D in P1, P2, P3. specialize (HU th).
    assert (A0 : U th = sqrt (U th * U th + V th * V th) * cos (atan (V th / U th)) /\ V th = sqrt (U th * U th + V th * V th) * sin (atan (V th / U th))).
    { destruct (polar_aux (U th) (V th / U th) HU) as [Q1 Q2]. replace (V th / U th * U th) with (V th) in Q1, Q2 by (field; lra). auto. }
    set (W := sqrt (U th * U th + V th * V th)) in *. set (al := atan (V th / U th)) in *. destruct A0 as [A1 A2].
    assert (HW : 0 < W). { unfold W. apply sqrt_lt_R0. pose proof (Rle_0_sqr (V th)) as Q. unfold Rsqr in Q. nra. }
    apply (angU_congruent _ _ (W / D)).
    + apply Rdiv_lt_0_compat; lra.
    + unfold onCircle. cbn [vx]. rewrite cos_plus. apply Rmult_eq_reg_l with (D * D); [|nra]. 
      replace (D * D * (W / D * (cos (angU c x) * cos al - sin (angU c x) * sin al))) with ((D * cos (angU c x)) * (W * cos al) - (D * sin (angU c x)) * (W * sin al)) by (field; lra).
      rewrite <- P1, <- P2, <- A1, <- A2. unfold U, V. rewrite <- ED. unfold a, b. ring.
    + unfold onCircle. cbn [vy]. rewrite sin_plus. apply Rmult_eq_reg_l with (D * D); [|nra].
      replace (D * D * (W / D * (sin (angU c x) * cos al + cos (angU c x) * sin al))) with ((D * sin (angU c x)) * (W * cos al) + (D * cos (angU c x)) * (W * sin al)) by (field; lra).
      rewrite <- P1, <- P2, <- A1, <- A2. unfold U, V. rewrite <- ED. unfold a, b. ring.
  - intros th. unfold U, V. rewrite cos_plus, sin_plus, cos_2PI, sin_2PI. do 2 f_equal. f_equal; ring.
Qed.

Lemma centre_angle c r th : 0 < r -> congruent (angU (onCircle c r th) c) (th + PI).
Proof.
  intros Hr. apply (angU_congruent _ _ r); [auto| |]; unfold onCircle; cbn [vx vy].
  - rewrite neg_cos. ring. - rewrite neg_sin. ring.
Qed.

Lemma congruent_scal z a b : congruent a b -> congruent (IZR z * a) (IZR z * b).
Proof. intros (k & ->). exists (z * k)%Z. rewrite mult_IZR. ring. Qed.

Lemma congruent_add a b a' b' : congruent a b -> congruent a' b' -> congruent (a + a') (b + b').
Proof. intros (k & ->) (k' & ->). exists (k + k')%Z. rewrite plus_IZR. ring. Qed.

Lemma congruent_opp a b : congruent a b -> congruent (- a) (- b).
Proof. intros (k & ->). exists (- k)%Z. rewrite opp_IZR. ring. Qed.

(** the directions of all points but c, weighted by integers, continuously *)
Lemma outside_angles c r (m : vec -> R) L : 0 < r -> (forall x, In x L -> r < dist c x) -> (forall x, exists z, m x = IZR z) ->
  exists lam : R -> R, (forall th, continuity_pt lam th) /\ (forall th, congruent (sumR (map (fun x => m x * angU (onCircle c r th) x) L)) (lam th)) /\ lam (2 * PI) = lam 0.
Proof.
  intros Hr HL Hm. induction L as [|x L IH].
  - exists (fun _ => 0). split; [intros th; apply continuity_pt_const; intros ? ?; reflexivity|]. split; [intros th; exists 0%Z; cbn; lra|reflexivity].
  - destruct IH as (l1 & C1 & E1 & P1); [intros; apply HL; now right|]. destruct (outside_angle c r x Hr (HL x (or_introl eq_refl))) as (l2 & C2 & E2 & P2). destruct (Hm x) as (z & Ez).
    exists (fun th => m x * l2 th + l1 th). split; [|split].
    + intros th. apply (continuity_pt_plus (fun th => m x * l2 th) l1); [|apply C1]. apply (continuity_pt_scal l2 (m x)). apply C2.
    + intros th. cbn [map]. rewrite sumR_cons. apply congruent_add; [rewrite Ez; apply congruent_scal, E2|apply E1].
    + specialize (P2 0). rewrite Rplus_0_l in P2. now rewrite P1, P2.
Qed.

(** a finite set of points keeps a positive distance from any other point *)
Lemma clearance c (L : list vec) : exists r, 0 < r /\ forall x, In x L -> x <> c -> r < dist c x.
Proof.
  induction L as [|y L (r & Hr & H)]; [exists 1; split; [lra|intros ? []]|]. destruct (veq_dec y c) as [->|Ne].
  - exists r. split; [auto|]. intros x [<-|Hx] N; [congruence|auto].
  - pose proof (dist_pos c y (fun E => Ne (eq_sym E))) as P. exists (Rmin r (dist c y / 2)). split; [apply Rmin_glb_lt; lra|]. intros x [<-|Hx] N.
    + eapply Rle_lt_trans; [apply Rmin_r|]. lra. + eapply Rle_lt_trans; [apply Rmin_l|]. auto.
Qed.

(** ** Deciding whether a point is on a path (classically) *)
Lemma pdec (P : Prop) : {P} + {~ P}.
Proof. destruct (sig_not_dec P) as [H|H]; [left; apply NNPP; exact H|now right]. Qed.

Lemma fresh (l : list R) : exists m, ~ In m l.
Proof.
  assert (G : exists b, forall x, In x l -> x < b).
  { induction l as [|x l (b & H)]; [exists 0; intros ? []|]. exists (Rmax (x + 1) b). intros y [<-|Hy]; [eapply Rlt_le_trans; [|apply Rmax_l]; lra|eapply Rlt_le_trans; [apply H; auto|apply Rmax_r]]. }
  destruct G as (b & H). exists b. intros Hb. specialize (H b Hb). lra.
Qed.

Lemma along_continuous (D : vec -> R) (g : R -> vec) t : continuous (fun u => vx (g u)) t -> continuous (fun u => vy (g u)) t ->
  (forall e, 0 < e -> exists d, 0 < d /\ forall q, dist (g t) q < d -> Rabs (D q - D (g t)) <= e) -> continuity_pt (fun u => D (g u)) t.
Proof.
  intros CX CY H. pose proof (path_dist_continuous (g t) g t CX CY) as C. apply continuity_pt_filterlim in C. 
  intros e He. destruct (H (e / 2) ltac:(lra)) as (d & Hd & Hq). destruct (C d Hd) as (a & Ha & Hc). exists a. split; [auto|]. intros x Hx. specialize (Hc x Hx).
  cbn in Hc |- *. unfold R_dist in *. eapply Rle_lt_trans; [apply Hq|lra]. 
  assert (E : dist (g t) (g t) = 0) by (unfold dist; replace ((vx (g t) - vx (g t)) ^ 2 + (vy (g t) - vy (g t)) ^ 2) with 0 by ring; apply sqrt_0).
  rewrite E, Rminus_0_r in Hc. eapply Rle_lt_trans; [apply Rle_abs|exact Hc].
Qed.

Definition rv (inv : bool) (l : list (vec * R * vec)) : list (vec * R * vec) := if inv then map rev3 l else l.
Definition b2z (b : bool) : Z := if b then 1%Z else 0%Z.
Definition sgn (inv : bool) : Z := if inv then (-1)%Z else 1%Z.
(** is the point inside the polyline? *)
Definition inside (pl : polyline) (q : vec) : bool := negb (Z.eqb (getWindingNumber pl q) 0).

Lemma netT_rv inv l x : netT (rv inv l) x = IZR (sgn inv) * netT l x.
Proof. unfold rv, sgn. destruct inv; [rewrite netT_rev; lra|lra]. Qed.
Lemma turnT_rv inv l p : okT l -> offT l p -> turnT p (rv inv l) = IZR (sgn inv) * turnT p l.
Proof. intros H O. unfold rv, sgn. destruct inv; [rewrite turnT_rev by auto; lra|lra]. Qed.
Lemma offT_map l p : offT l p -> offT (map rev3 l) p.
Proof. intros H e He O. apply in_map_iff in He. destruct He as (x & <- & Hx). rewrite on3_rev' in O. exact (H x Hx O). Qed.
Lemma okT_map l : okT l -> okT (map rev3 l).
Proof. intros H e He. apply in_map_iff in He. destruct He as (x & <- & Hx). apply ok3_rev, H, Hx. Qed.
Lemma offT_rv inv l p : offT l p -> offT (rv inv l) p.
Proof. intros H. destruct inv; [now apply offT_map|auto]. Qed.
Lemma okT_rv inv l : okT l -> okT (rv inv l).
Proof. intros H. destruct inv; [now apply okT_map|auto]. Qed.
Lemma offT_app l l' p : offT l p -> offT l' p -> offT (l ++ l') p.
Proof. intros H H' e He. apply in_app_or in He. destruct He; auto. Qed.
Lemma okT_app l l' : okT l -> okT l' -> okT (l ++ l').
Proof. intros H H' e He. apply in_app_or in He. destruct He; auto. Qed.

(** ** The balance *)
Section Balance.
Context (A B : polyline) (KA NA KB NB : list (vec * R * vec)) (inv : bool) (sA sB : Z) (gA gB : bool -> bool) (Phi : bool -> bool -> Z) (X : list vec).
Hypothesis (HsA : sA = 1%Z \/ sA = (-1)%Z) (HsB : sB = 1%Z \/ sB = (-1)%Z).
Hypothesis (HbA : smallBulges A) (HbB : smallBulges B).
Hypothesis HwA : forall q, ~ onPath A q -> getWindingNumber A q = 0%Z \/ getWindingNumber A q = sA.
Hypothesis HwB : forall q, ~ onPath B q -> getWindingNumber B q = 0%Z \/ getWindingNumber B q = sB.
Hypothesis HP0 : Phi false false = 0%Z.
Hypothesis HPA : forall b, Phi true b = (Phi false b + b2z (gA b))%Z.
Hypothesis HPB : forall b, Phi b true = (Phi b false + sgn inv * sA * sB * b2z (gB b))%Z.
Hypothesis (F1A : forall p, ~ onPath A p -> turnT p KA + turnT p NA = 2 * PI * IZR (getWindingNumber A p))
  (F1B : forall p, ~ onPath B p -> turnT p KB + turnT p NB = 2 * PI * IZR (getWindingNumber B p)).
Hypothesis (OKA : okT (KA ++ NA)) (OKB : okT (KB ++ NB)).
Hypothesis (F2A : forall e q, In e (KA ++ NA) -> on3 e q -> onPath A q) (F2B : forall e q, In e (KB ++ NB) -> on3 e q -> onPath B q).
Hypothesis (F3A : forall e q, In e KA -> on3 e q -> ~ onPath B q -> gA (inside B q) = true)
  (F3A' : forall e q, In e NA -> on3 e q -> ~ onPath B q -> gA (inside B q) = false)
  (F3B : forall e q, In e KB -> on3 e q -> ~ onPath A q -> gB (inside A q) = true)
  (F3B' : forall e q, In e NB -> on3 e q -> ~ onPath A q -> gB (inside A q) = false).
Hypothesis (F4A : forall x, netT (KA ++ NA) x = 0) (F4B : forall x, netT (KB ++ NB) x = 0).
Hypothesis HX : forall q, onPath A q -> onPath B q -> In q X.

Let R1 := KA ++ rv inv KB.
Let R2 := map rev3 NA ++ rv inv KB.
Let R3 := KA ++ rv (negb inv) NB.
Let L : list vec := flat_map (fun e : vec * R * vec => [fst (fst e); snd e]) (KA ++ NA ++ KB ++ NB).

Lemma inside_w pl s q : getWindingNumber pl q = 0%Z \/ getWindingNumber pl q = s -> s = 1%Z \/ s = (-1)%Z -> getWindingNumber pl q = (s * b2z (inside pl q))%Z.
Proof. intros [E|E] [->| ->]; unfold inside; rewrite E; cbn; lia. Qed.

Definition defect (q : vec) : R :=
  if pdec (onPath A q) then turnT q (if gA (inside B q) then R2 else R1) - 2 * PI * IZR (sA * Phi false (inside B q))
  else if pdec (onPath B q) then turnT q (if gB (inside A q) then R3 else R1) - 2 * PI * IZR (sA * Phi (inside A q) false)
  else turnT q R1 - 2 * PI * IZR (sA * Phi (inside A q) (inside B q)).

Lemma ok4 : okT KA /\ okT NA /\ okT KB /\ okT NB.
Proof. repeat split; intros e He; first [apply OKA, in_or_app; tauto|apply OKB, in_or_app; tauto]. Qed.

Lemma offA q : ~ onPath A q -> offT KA q /\ offT NA q.
Proof. intros H. split; intros e He O; apply H, (F2A e q); auto; apply in_or_app; tauto. Qed.
Lemma offB q : ~ onPath B q -> offT KB q /\ offT NB q.
Proof. intros H. split; intros e He O; apply H, (F2B e q); auto; apply in_or_app; tauto. Qed.

(** around every point that is not common, the defect is the turning of one fixed trace that avoids the point *)
Lemma defect_local q0 : ~ (onPath A q0 /\ onPath B q0) -> exists Rr c d, In Rr [R1; R2; R3] /\ offT Rr q0 /\ 0 < d /\ forall q, dist q0 q < d -> defect q = turnT q Rr - 2 * PI * IZR c.
Proof.
  intros NC. destruct ok4 as (K1 & K2 & K3 & K4). destruct (pdec (onPath A q0)) as [HA|HA].
  - assert (HB : ~ onPath B q0) by tauto. destruct (offB q0 HB) as [O3 O4]. destruct (C47_locally_constant B q0 HbB HB) as (d & Hd & H).
    assert (HI : forall q, dist q0 q < d -> ~ onPath B q /\ inside B q = inside B q0). { intros q Hq. destruct (H q Hq) as [H1 H2]. split; [auto|]. unfold inside. now rewrite H2. }
    set (b := inside B q0) in *. destruct (gA b) eqn:Eg.
    + exists R2, (sA * Phi false b)%Z, d. split; [right; now left|]. split; [|split; [auto|]].
      * apply offT_app; [|now apply offT_rv]. apply offT_map. intros e He O. pose proof (F3A' e q0 He O HB) as Q. fold b in Q. congruence.
      * intros q Hq. destruct (HI q Hq) as [HBq Eb]. unfold defect. rewrite Eb, Eg. destruct (pdec (onPath A q)) as [HAq|HAq]; [reflexivity|]. destruct (pdec (onPath B q)) as [HBq'|_]; [contradiction|].
        destruct (offA q HAq) as [O1 O2]. unfold R1, R2. rewrite !turnT_app, (turnT_rev q NA K2 O2). pose proof (F1A q HAq) as F. rewrite (inside_w A sA q (HwA q HAq) HsA) in F.
        replace (turnT q KA) with (2 * PI * IZR (sA * b2z (inside A q)) - turnT q NA) by lra. 
        assert (EP : (Phi (inside A q) b = Phi false b + b2z (inside A q))%Z). { destruct (inside A q); [rewrite HPA, Eg; reflexivity|cbn; lia]. }
        rewrite EP, !mult_IZR, plus_IZR. ring.
    + exists R1, (sA * Phi false b)%Z, d. split; [now left|]. split; [|split; [auto|]].
      * apply offT_app; [|now apply offT_rv]. intros e He O. pose proof (F3A e q0 He O HB) as Q. fold b in Q. congruence.
      * intros q Hq. destruct (HI q Hq) as [HBq Eb]. unfold defect. rewrite Eb, Eg. destruct (pdec (onPath A q)) as [HAq|HAq]; [reflexivity|]. destruct (pdec (onPath B q)) as [HBq'|_]; [contradiction|].
        assert (EP : (Phi (inside A q) b = Phi false b)%Z). { destruct (inside A q); [rewrite HPA, Eg; cbn; lia|reflexivity]. } now rewrite EP.
  - destruct (offA q0 HA) as [O1 O2]. destruct (C47_locally_constant A q0 HbA HA) as (d & Hd & H).
    assert (HI : forall q, dist q0 q < d -> ~ onPath A q /\ inside A q = inside A q0). { intros q Hq. destruct (H q Hq) as [H1 H2]. split; [auto|]. unfold inside. now rewrite H2. }
    set (a := inside A q0) in *. destruct (pdec (onPath B q0)) as [HB|HB].
    + destruct (gB a) eqn:Eg.
      * exists R3, (sA * Phi a false)%Z, d. split; [right; right; now left|]. split; [|split; [auto|]].
        -- apply offT_app; [auto|]. apply offT_rv. intros e He O. pose proof (F3B' e q0 He O HA) as Q. fold a in Q. congruence.
        -- intros q Hq. destruct (HI q Hq) as [HAq Ea]. unfold defect. rewrite Ea, Eg. destruct (pdec (onPath A q)) as [HAq'|_]; [contradiction|]. destruct (pdec (onPath B q)) as [HBq|HBq]; [reflexivity|].
           destruct (offB q HBq) as [Q3 Q4]. unfold R1, R3. rewrite !turnT_app, (turnT_rv inv KB q K3 Q3), (turnT_rv (negb inv) NB q K4 Q4). pose proof (F1B q HBq) as F. rewrite (inside_w B sB q (HwB q HBq) HsB) in F.
           replace (turnT q KB) with (2 * PI * IZR (sB * b2z (inside B q)) - turnT q NB) by lra.
           assert (EP : (Phi a (inside B q) = Phi a false + sgn inv * sA * sB * b2z (inside B q))%Z). { destruct (inside B q); [rewrite HPB, Eg; reflexivity|cbn; lia]. }
           rewrite EP. destruct inv; cbn [negb sgn]; destruct HsA as [->| ->]; destruct HsB as [->| ->]; rewrite ?mult_IZR, ?plus_IZR, ?mult_IZR; ring.
      * exists R1, (sA * Phi a false)%Z, d. split; [now left|]. split; [|split; [auto|]].
        -- apply offT_app; [auto|]. apply offT_rv. intros e He O. pose proof (F3B e q0 He O HA) as Q. fold a in Q. congruence.
        -- intros q Hq. destruct (HI q Hq) as [HAq Ea]. unfold defect. rewrite Ea, Eg. destruct (pdec (onPath A q)) as [HAq'|_]; [contradiction|]. destruct (pdec (onPath B q)) as [HBq|HBq]; [reflexivity|].
           assert (EP : (Phi a (inside B q) = Phi a false)%Z). { destruct (inside B q); [rewrite HPB, Eg; cbn; lia|reflexivity]. } now rewrite EP.
    + destruct (offB q0 HB) as [O3 O4]. destruct (C47_locally_constant B q0 HbB HB) as (d' & Hd' & H').
      exists R1, (sA * Phi a (inside B q0))%Z, (Rmin d d'). split; [now left|]. split; [apply offT_app; [auto|now apply offT_rv]|]. split; [now apply Rmin_glb_lt|]. intros q Hq.
      destruct (HI q) as [HAq Ea]; [eapply Rlt_le_trans; [exact Hq|apply Rmin_l]|]. destruct (H' q) as [HBq Eb]; [eapply Rlt_le_trans; [exact Hq|apply Rmin_r]|].
      unfold defect. destruct (pdec (onPath A q)) as [|_]; [contradiction|]. destruct (pdec (onPath B q)) as [|_]; [contradiction|]. rewrite Ea. unfold inside at 1. rewrite Eb. reflexivity.
Qed.

Lemma traces_ok Rr : In Rr [R1; R2; R3] -> okT Rr /\ (forall x, netT Rr x = netT R1 x) /\ forall e, In e Rr -> In (fst (fst e)) L /\ In (snd e) L.
Proof.
  intros H. destruct ok4 as (K1 & K2 & K3 & K4).
  assert (HL : forall e, In e KA \/ In e NA \/ In e KB \/ In e NB -> In (fst (fst e)) L /\ In (snd e) L).
  { intros e He. unfold L. rewrite !in_flat_map. split; exists e; (split; [rewrite !in_app_iff; tauto|cbn; tauto]). }
  assert (HR : forall e, In (rev3 e) KA \/ In (rev3 e) NA \/ In (rev3 e) KB \/ In (rev3 e) NB -> In (fst (fst e)) L /\ In (snd e) L).
  { intros e He. apply HL in He. destruct e as [[a b] c]. cbn [rev3 fst snd] in He |- *. tauto. }
  assert (HV : forall i l e, In e (rv i l) -> In e l \/ In (rev3 e) l). { intros i l e He. destruct i; [|now left]. cbn [rv] in He. apply in_map_iff in He. destruct He as (x & <- & Hx). rewrite rev3_rev3. now right. }
  destruct H as [<-|[<-|[<-|[]]]].
  - split; [apply okT_app; [auto|now apply okT_rv]|]. split; [reflexivity|]. intros e He. apply in_app_or in He. destruct He as [He|He]; [apply HL; tauto|]. apply HV in He. destruct He; [apply HL|apply HR]; tauto.
  - split; [apply okT_app; [now apply okT_map|now apply okT_rv]|]. split.
    + intros x. unfold R1, R2. rewrite !netT_app, netT_rev. pose proof (F4A x) as F. rewrite netT_app in F. lra.
    + intros e He. apply in_app_or in He. destruct He as [He|He]; [apply (HV true) in He; destruct He; [apply HL|apply HR]; tauto|]. apply HV in He. destruct He; [apply HL|apply HR]; tauto.
  - split; [apply okT_app; [auto|now apply okT_rv]|]. split.
    + intros x. unfold R1, R3. rewrite !netT_app, !netT_rv. pose proof (F4B x) as F. rewrite netT_app in F. replace (netT KB x) with (- netT NB x) by lra. destruct inv; cbn [negb sgn]; lra.
    + intros e He. apply in_app_or in He. destruct He as [He|He]; [apply HL; tauto|]. apply HV in He. destruct He; [apply HL|apply HR]; tauto.
Qed.

Lemma defect_cont q0 : ~ (onPath A q0 /\ onPath B q0) -> forall e, 0 < e -> exists d, 0 < d /\ forall q, dist q0 q < d -> Rabs (defect q - defect q0) <= e.
Proof.
  intros NC e He. destruct (defect_local q0 NC) as (Rr & c & d & Hin & O & Hd & H). destruct (traces_ok Rr Hin) as (K & _ & _). destruct (turnT_local Rr q0 K O e He) as (d2 & Hd2 & H2).
  assert (E0 : dist q0 q0 = 0) by (unfold dist; replace ((vx q0 - vx q0) ^ 2 + (vy q0 - vy q0) ^ 2) with 0 by ring; apply sqrt_0).
  exists (Rmin d d2). split; [now apply Rmin_glb_lt|]. intros q Hq. rewrite (H q), (H q0); [|lra|eapply Rlt_le_trans; [exact Hq|apply Rmin_l]].
  destruct (H2 q) as [_ B2]; [eapply Rlt_le_trans; [exact Hq|apply Rmin_r]|]. replace (turnT q Rr - 2 * PI * IZR c - (turnT q0 Rr - 2 * PI * IZR c)) with (turnT q Rr - turnT q0 Rr) by ring. exact B2.
Qed.

Lemma defect_cong (M : list vec) q : NoDup M -> (forall x, In x L -> In x M) -> ~ (onPath A q /\ onPath B q) -> congruent (- sumR (map (fun x => netT R1 x * angU q x) M)) (defect q).
Proof.
  intros Nd HM NC. destruct (defect_local q NC) as (Rr & c & d & Hin & O & Hd & H). destruct (traces_ok Rr Hin) as (K & N & HL).
  assert (E0 : dist q q = 0) by (unfold dist; replace ((vx q - vx q) ^ 2 + (vy q - vy q) ^ 2) with 0 by ring; apply sqrt_0). rewrite (H q) by lra.
  destruct (turnT_cong M Rr q Nd (fun e He => conj (HM _ (proj1 (HL e He))) (HM _ (proj2 (HL e He)))) K O) as (k & Ek). exists (k - c)%Z. rewrite Ek, minus_IZR.
  rewrite (sum_ext (fun x => netT R1 x * angU q x) (fun x => netT Rr x * angU q x)) by (intros x _; now rewrite N). ring.
Qed.

Lemma onCircle_dist c r th : 0 <= r -> dist c (onCircle c r th) = r.
Proof.
  intros Hr. unfold dist, onCircle. cbn [vx vy]. pose proof (sin2_cos2 th) as Q. unfold Rsqr in Q.
  replace ((vx c - (vx c + r * cos th)) ^ 2 + (vy c - (vy c + r * sin th)) ^ 2) with (r * r * (sin th * sin th + cos th * cos th)) by ring. rewrite Q, Rmult_1_r. now apply sqrt_square.
Qed.

(** at every point as many parts start as end *)
Theorem balance x0 : netT R1 x0 = 0.
Proof.
  set (L0 := filter (fun x => if veq_dec x x0 then false else true) (nodup veq_dec L)).
  assert (H0 : forall x, In x L0 <-> In x L /\ x <> x0). { intros x. unfold L0. rewrite filter_In, nodup_In. destruct (veq_dec x x0); split; intros [Q1 Q2]; split; auto; congruence. }
  assert (Nd : NoDup (x0 :: L0)). { constructor; [rewrite H0; tauto|apply NoDup_filter, NoDup_nodup]. }
  assert (HM : forall x, In x L -> In x (x0 :: L0)). { intros x Hx. destruct (veq_dec x x0) as [->|Ne]; [now left|right; now apply H0]. }
  destruct (clearance x0 (L0 ++ X)) as (r & Hr & Hfar).
  destruct (outside_angles x0 r (netT R1) L0 Hr) as (lam & Cl & El & Pl); [intros x Hx; apply Hfar; [apply in_or_app; now left|now apply H0 in Hx]|apply netT_int|].
  assert (NC : forall th, ~ (onPath A (onCircle x0 r th) /\ onPath B (onCircle x0 r th))).
  { intros th [HA HB]. pose proof (HX _ HA HB) as Hin. pose proof (onCircle_dist x0 r th ltac:(lra)) as E. assert (Ne : onCircle x0 r th <> x0).
    { intros Q. rewrite Q in E. unfold dist in E. replace ((vx x0 - vx x0) ^ 2 + (vy x0 - vy x0) ^ 2) with 0 in E by ring. rewrite sqrt_0 in E. lra. }
    specialize (Hfar _ (in_or_app L0 X _ (or_intror Hin)) Ne). lra. }
  set (f := fun th => defect (onCircle x0 r th) + (lam th + netT R1 x0 * (th + PI))).
  assert (Cf : forall th, continuity_pt f th).
  { intros th. unfold f. apply (continuity_pt_plus (fun th => defect (onCircle x0 r th)) (fun th => lam th + netT R1 x0 * (th + PI))).
    - apply along_continuous; [| |apply defect_cont, NC]; unfold onCircle; cbn [vx vy]; apply (ex_derive_continuous (V := R_NormedModule)); auto_derive; auto.
    - apply (continuity_pt_plus lam (fun th => netT R1 x0 * (th + PI))); [apply Cl|]. apply derivable_continuous_pt. reg. }
  assert (Lf : forall th, exists k : Z, f th = 2 * PI * IZR k).
  { intros th. pose proof (defect_cong (x0 :: L0) _ Nd HM (NC th)) as (k & Ek). cbn [map] in Ek. rewrite sumR_cons in Ek. destruct (El th) as (k2 & Ek2). destruct (netT_int R1 x0) as (z & Ez).
    destruct (congruent_scal z _ _ (centre_angle x0 r th Hr)) as (k3 & Ek3). rewrite <- Ez in Ek3. exists (k + k2 + k3)%Z. unfold f. rewrite Ek, Ek2, Ek3, !plus_IZR. ring. }
  pose proof (lattice_const f 0 (2 * PI) Cf Lf) as E. unfold f in E. assert (Ec : onCircle x0 r (2 * PI) = onCircle x0 r 0) by (unfold onCircle; now rewrite cos_2PI, cos_0, sin_2PI, sin_0). rewrite Ec, Pl in E.
  pose proof PI_RGT_0. assert (netT R1 x0 * (2 * PI) = 0) as Q by lra. apply Rmult_integral in Q. destruct Q; [auto|lra].
Qed.

(** the turning of the kept parts around a point off both polylines *)
Theorem balance_turn q : ~ onPath A q -> ~ onPath B q -> turnT q R1 = 2 * PI * IZR (sA * Phi (inside A q) (inside B q)).
Proof.
  intros HA HB.
  destruct (fresh (map (fun x => (vy x - vy q) / (vx x - vx q)) X)) as (m & Hm). set (g := fun t => mkV (vx q + t) (vy q + t * m)).
  assert (Eg : g 0 = q) by (unfold g; apply vec_eq; cbn [vx vy]; lra).
  assert (NC : forall t, ~ (onPath A (g t) /\ onPath B (g t))).
  { intros t [Q1 Q2]. destruct (Req_dec t 0) as [->|Nt]; [rewrite Eg in Q1; contradiction|]. pose proof (HX _ Q1 Q2) as Hin. apply Hm. apply in_map_iff. exists (g t). split; [|auto]. unfold g. cbn [vx vy]. field. lra. }
  assert (Cf : forall t, continuity_pt (fun t => defect (g t)) t).
  { intros t. apply along_continuous; [| |apply defect_cont, NC]; unfold g; cbn [vx vy]; apply (ex_derive_continuous (V := R_NormedModule)); auto_derive; auto. }
  assert (Lf : forall t, exists k : Z, defect (g t) = 2 * PI * IZR k).
  { intros t. destruct (defect_cong (nodup veq_dec L) (g t) (NoDup_nodup _ _) (fun x Hx => proj2 (nodup_In _ _ _) Hx) (NC t)) as (k & Ek). exists k. rewrite Ek.
    rewrite (sum_zero (fun x => netT R1 x * angU (g t) x)) by (intros x _; rewrite balance; ring). ring. }
  destruct (C47_far_zero A HbA) as (B1 & P1 & Z1). destruct (C47_far_zero B HbB) as (B2 & P2 & Z2). destruct (traces_ok R1 (or_introl eq_refl)) as (K & _ & _). destruct (turnT_far R1 K 1 ltac:(lra)) as (B3 & P3 & Z3).
  set (t := Rabs (vx q) + B1 + B2 + B3 + 1). 
  assert (Hfar : Rmax B1 (Rmax B2 B3) < dist (mkV 0 0) (g t)).
  { apply Rlt_le_trans with (Rabs (vx (g t))).
    - unfold g. cbn [vx]. unfold t. pose proof (Rabs_pos (vx q)). pose proof (Rle_abs (- vx q)) as Q. rewrite Rabs_Ropp in Q. rewrite Rabs_right by lra. repeat apply Rmax_lub_lt; lra.
    - unfold dist. cbn [vx vy]. rewrite <- sqrt_Rsqr_abs. apply sqrt_le_1_alt. unfold Rsqr. pose proof (Rle_0_sqr (vy (g t))) as Q. unfold Rsqr in Q. nra. }
  destruct (Z1 (g t)) as [QA WA]; [eapply Rle_lt_trans; [apply Rmax_l|exact Hfar]|].
  destruct (Z2 (g t)) as [QB WB]; [eapply Rle_lt_trans; [|exact Hfar]; eapply Rle_trans; [apply Rmax_l|apply Rmax_r]|].
  assert (Z3' : Rabs (turnT (g t) R1) <= 1) by (apply Z3; eapply Rle_lt_trans; [|exact Hfar]; eapply Rle_trans; [apply Rmax_r|apply Rmax_r]).
  assert (D0 : defect (g t) = 0).
  { destruct (Lf t) as (k & Ek). assert (E : defect (g t) = turnT (g t) R1).
    { unfold defect. destruct (pdec (onPath A (g t))); [contradiction|]. destruct (pdec (onPath B (g t))); [contradiction|]. unfold inside. rewrite WA, WB. cbn [Z.eqb negb]. rewrite HP0, Z.mul_0_r. ring. }
    rewrite Ek. replace k with 0%Z; [ring|]. symmetry. apply IZR_close. rewrite <- Ek, E. replace (turnT (g t) R1 - 2 * PI * 0) with (turnT (g t) R1) by ring. exact Z3'. }
  pose proof (lattice_const (fun t => defect (g t)) 0 t Cf Lf) as E. cbn beta in E. rewrite D0, Eg in E. unfold defect in E. destruct (pdec (onPath A q)); [contradiction|]. destruct (pdec (onPath B q)); [contradiction|]. lra.
Qed.
End Balance.
