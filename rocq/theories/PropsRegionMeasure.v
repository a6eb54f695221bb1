(** Boolean operations on simple closed polylines: the enclosed region, and its area. *)
From Coq Require Import Reals List ZArith Lia Lra Bool Permutation Classical.
From Coquelicot Require Import Coquelicot.
From Verif Require Import Base Num MathUtils PlineSegment Polyline Intersects Combine Spec RGeom PropsMath ArcGeom Polar Turning PropsSegment PropsClosest PropsPolyline PropsArea PropsWinding PropsPlineIndex StdLaws PropsSlices PropsStitch PropsCombine PropsRegion PropsPieces PropsTrace PropsBoolOps PropsBalance PropsRegionOps PropsRegionArea PropsJordan PropsWindArea.
Import ListNotations.
Open Scope R_scope.

(** ** Inputs whose paths do not touch themselves *)
(** the result of a boolean operation on crossing simple polylines encloses a point if and only if the point is in the union, intersection, difference
    or symmetric difference of the regions enclosed by the inputs *)
Theorem C54_boolean {SL : StdLib} {SLaws : StdLaws SL} A B mode : closedPline A -> closedPline B -> indexable A ->
  (10 * Z.of_nat (length (vertexes A)) * Z.of_nat (length (vertexes B)) <= 2 ^ 24)%Z ->
  smallBulges A -> smallBulges B -> generalPosition A B -> (exists q, common A B q) -> simplePath A -> simplePath B ->
  exists r, combinePolylines A B mode = Ok r /\
    forall q, ~ onPath A q -> ~ onPath B q -> windingSum (remaining r ++ subtracted r) q <> 0%Z <->
      match mode with
      | Union => insideOf A q \/ insideOf B q
      | Intersect => insideOf A q /\ insideOf B q
      | Exclude => insideOf A q /\ ~ insideOf B q
      | XOR => (insideOf A q /\ ~ insideOf B q) \/ (insideOf B q /\ ~ insideOf A q)
      end.
Proof. intros CA CB IA Hsz SA SB GP HX LA LB. apply C52_enclosed; auto; now apply C54_simpleLoop. Qed.

(** ** The area of the region *)
Lemma plane_ext (f g : vec -> R) M l (P : vec -> Prop) : 0 <= M -> (forall q, ~ P q -> f q = g q) ->
  (exists E : list R, forall y, ~ In y E -> exists F : list R, forall x, P (mkV x y) -> In x F) -> planeIntegral f M l -> planeIntegral g M l.
Proof.
  intros HM H (E & HE) (E' & A & B).
  assert (I : forall y, ~ In y (E ++ E') -> is_RInt (fun x => g (mkV x y)) (- M) M (RInt (fun x => f (mkV x y)) (- M) M)).
  { intros y N. rewrite in_app_iff in N. destruct (HE y) as (F & HF); [tauto|]. apply (is_RInt_except (fun x => f (mkV x y)) _ F); [lra| |].
    - intros x _ Nx. apply H. intros Q. apply Nx, HF, Q.
    - apply (RInt_correct (V := R_CompleteNormedModule)), A. tauto. }
  exists (E ++ E'). split; [intros y N; eexists; now apply I|].
  apply (is_RInt_except (fun y => RInt (fun x => f (mkV x y)) (- M) M) _ (E ++ E')); [lra| |exact B].
  intros y _ N. symmetry. apply (is_RInt_unique (V := R_CompleteNormedModule)). now apply I.
Qed.

Lemma plane_plus f g M l m : 0 <= M -> planeIntegral f M l -> planeIntegral g M m -> planeIntegral (fun q => f q + g q) M (l + m).
Proof.
  intros HM (E & A & B) (E' & A' & B').
  assert (I : forall y, ~ In y (E ++ E') -> is_RInt (fun x => f (mkV x y) + g (mkV x y)) (- M) M (RInt (fun x => f (mkV x y)) (- M) M + RInt (fun x => g (mkV x y)) (- M) M)).
  { intros y N. rewrite in_app_iff in N. apply (is_RInt_plus (V := R_NormedModule) (fun x => f (mkV x y)) (fun x => g (mkV x y))); apply (RInt_correct (V := R_CompleteNormedModule)); [apply A|apply A']; tauto. }
  exists (E ++ E'). split; [intros y N; eexists; now apply I|].
  apply (is_RInt_except (fun y => RInt (fun x => f (mkV x y)) (- M) M + RInt (fun x => g (mkV x y)) (- M) M) _ (E ++ E')); [lra| |].
  - intros y _ N. symmetry. apply (is_RInt_unique (V := R_CompleteNormedModule)). now apply I.
  - apply (is_RInt_plus (V := R_NormedModule) (fun y => RInt (fun x => f (mkV x y)) (- M) M)); auto.
Qed.

Lemma plane_scal f M l k : 0 <= M -> planeIntegral f M l -> planeIntegral (fun q => k * f q) M (k * l).
Proof.
  intros HM (E & A & B).
  assert (I : forall y, ~ In y E -> is_RInt (fun x => k * f (mkV x y)) (- M) M (k * RInt (fun x => f (mkV x y)) (- M) M)).
  { intros y N. apply (is_RInt_scal (V := R_NormedModule) (fun x => f (mkV x y)) _ _ k). apply (RInt_correct (V := R_CompleteNormedModule)); now apply A. }
  exists E. split; [intros y N; eexists; now apply I|].
  apply (is_RInt_except (fun y => k * RInt (fun x => f (mkV x y)) (- M) M) _ E); [lra| |].
  - intros y _ N. symmetry. apply (is_RInt_unique (V := R_CompleteNormedModule)). now apply I.
  - apply (is_RInt_scal (V := R_NormedModule) (fun y => RInt (fun x => f (mkV x y)) (- M) M) _ _ k). auto.
Qed.

Lemma plane_zero M : planeIntegral (fun _ => 0) M 0.
Proof.
  exists []. split; [intros; apply ex_RInt_const|]. apply (is_RInt_ext (V := R_NormedModule) (fun _ => 0)); [|apply is_RInt_zero].
  intros. symmetry. apply (is_RInt_unique (V := R_CompleteNormedModule)). apply is_RInt_zero.
Qed.

Lemma windingSum_integral l M : 0 <= M -> (forall p, In p l -> isClosed p = true /\ smallBulges p /\ withinSquare p M) ->
  planeIntegral (fun q => IZR (windingSum l q)) M (sumR (map getArea l)).
Proof.
  intros HM. induction l as [|p l IH]; intros H; [apply plane_zero|]. cbn [map]. rewrite sumR_cons.
  destruct (H p (or_introl eq_refl)) as (Hc & Hb & Hs).
  pose proof (plane_plus _ _ M _ _ HM (C55_winding_integral p M Hc Hb Hs) (IH (fun p' Hp => H p' (or_intror Hp)))) as K.
  apply (plane_ext _ _ M _ (fun _ => False) HM) with (3 := K).
  - intros q _. unfold windingSum. cbn [map fold_right]. rewrite plus_IZR. reflexivity.
  - exists []. intros y _. exists []. intros x [].
Qed.

(** a path meets almost every horizontal line in finitely many points *)
Lemma path_thin pl M : isClosed pl = true -> smallBulges pl -> withinSquare pl M -> exists E : list R, forall y, ~ In y E -> exists F : list R, forall x, onPath pl (mkV x y) -> In x F.
Proof. intros Hc Hb HM. destruct (C55_area_is_winding_integral pl M Hc Hb HM) as (E & A & _). exists E. intros y N. now apply A. Qed.

Lemma thin_or (P Q : vec -> Prop) : (exists E : list R, forall y, ~ In y E -> exists F : list R, forall x, P (mkV x y) -> In x F) ->
  (exists E : list R, forall y, ~ In y E -> exists F : list R, forall x, Q (mkV x y) -> In x F) ->
  exists E : list R, forall y, ~ In y E -> exists F : list R, forall x, P (mkV x y) \/ Q (mkV x y) -> In x F.
Proof.
  intros (E & H) (E' & H'). exists (E ++ E'). intros y N. rewrite in_app_iff in N. destruct (H y) as (F & HF); [tauto|]. destruct (H' y) as (F' & HF'); [tauto|].
  exists (F ++ F'). intros x [O|O]; apply in_app_iff; [left|right]; auto.
Qed.

Lemma trace_small l o : (forall e, In e l -> ok3 e) -> forall e, In e (rv o l) -> ok3 e.
Proof. intros H e He. destruct o; cbn [rv] in He; [|auto]. apply in_map_iff in He. destruct He as (e' & <- & He'). apply ok3_rev. auto. Qed.

Lemma small_of_trace p : closedPline p -> (forall e, In e (trace p) -> ok3 e) -> smallBulges p.
Proof.
  intros C H. unfold smallBulges. rewrite List.Forall_forall. intros v Hv. destruct (In_nth _ _ v Hv) as (i & Hi & En).
  assert (Hin : In (vert p i 0, vert p i 1) (pathSegs p)) by (destruct C as [C1 C2]; now apply seg_at).
  specialize (H (seg3 (vert p i 0, vert p i 1))). unfold ok3, seg3 in H. cbn [fst snd] in H. unfold trace in H. 
  assert (E : vert p i 0 = v). { unfold vert, at_. rewrite Nat.add_0_r, Nat.mod_small by lia. rewrite (nth_indep _ _ v) by lia. exact En. }
  rewrite E in *. apply H. apply in_map_iff. exists (v, vert p i 1). split; [reflexivity|auto].
Qed.

(** the areas of the result polylines (of both kinds) add up to the orientation of A times the area of the union, intersection or difference;
    for XOR, to the difference of the areas of A minus B and B minus A *)
Theorem C56_region_area {SL : StdLib} {SLaws : StdLaws SL} A B mode M : closedPline A -> closedPline B -> indexable A ->
  (10 * Z.of_nat (length (vertexes A)) * Z.of_nat (length (vertexes B)) <= 2 ^ 24)%Z ->
  smallBulges A -> smallBulges B -> generalPosition A B -> (exists q, common A B q) -> simplePath A -> simplePath B ->
  withinSquare A M -> withinSquare B M ->
  exists r, combinePolylines A B mode = Ok r /\
    planeIntegral (fun q => IZR (regionOf mode (inside A q) (inside B q))) M (IZR (orient A) * areaSum r).
Proof.
  intros CA CB IA Hsz SA SB GP HX PA PB QA QB. pose proof (C54_simpleLoop A CA SA PA) as LA. pose proof (C54_simpleLoop B CB SB PB) as LB.
  destruct (C52_region A B mode CA CB IA Hsz SA SB GP HX LA LB) as (r & Er & H). exists r. split; [exact Er|].
  destruct (result_parts A B CA CB IA Hsz SA SB GP HX LA LB) as (KA & NA & KB & NB & _ & _ & OK & RP). destruct (RP mode) as (r' & Er' & Cr & Pr). rewrite Er in Er'. injection Er' as <-.
  assert (HM : 0 <= M). { destruct HX as (q & Q & _). destruct (QA q Q) as [K _]. pose proof (Rabs_pos (vx q)). lra. }
  assert (SM : forall p, In p (remaining r ++ subtracted r) -> isClosed p = true /\ smallBulges p /\ withinSquare p M).
  { intros p Hp. pose proof (proj1 (List.Forall_forall _ _) Cr p Hp) as Cp. split; [apply Cp|]. split.
    - apply small_of_trace; [auto|]. intros e He. assert (K : In e (partsOf mode (opposite A B) KA NA KB NB)) by (apply (Permutation_in _ Pr), in_flat_map; exists p; auto).
      assert (T : forall l o, incl l (KA ++ NA ++ KB ++ NB) -> In e (rv o l) -> ok3 e) by (intros l o Hl He'; apply (trace_small l o); auto; intros e' He''; apply OK; auto).
      assert (T0 : forall l, incl l (KA ++ NA ++ KB ++ NB) -> In e l -> ok3 e) by (intros l Hl He'; apply OK; auto).
      assert (I1 : incl KA (KA ++ NA ++ KB ++ NB)) by (intros z; rewrite !in_app_iff; tauto). assert (I2 : incl NA (KA ++ NA ++ KB ++ NB)) by (intros z; rewrite !in_app_iff; tauto).
      assert (I3 : incl KB (KA ++ NA ++ KB ++ NB)) by (intros z; rewrite !in_app_iff; tauto). assert (I4 : incl NB (KA ++ NA ++ KB ++ NB)) by (intros z; rewrite !in_app_iff; tauto).
      destruct mode; cbn [partsOf] in K; rewrite !in_app_iff in K; intuition eauto.
    - intros q O. destruct (classic (onPath A q)) as [OA|OA]; [now apply QA|]. destruct (classic (onPath B q)) as [OB|OB]; [now apply QB|]. destruct (proj1 (H q OA OB) p Hp O). }
  pose proof (plane_scal _ M _ (IZR (orient A)) HM (windingSum_integral _ M HM SM)) as K.
  apply (plane_ext _ _ M _ (fun q => onPath A q \/ onPath B q) HM) with (3 := K).
  - intros q N. rewrite (proj2 (H q ltac:(tauto) ltac:(tauto))), mult_IZR, <- Rmult_assoc. destruct (orient_pm A) as [-> | ->]; lra.
  - apply thin_or; [apply (path_thin A M)|apply (path_thin B M)]; auto; [apply CA|apply CB].
Qed.

(** *** The hypotheses hold for two overlapping squares *)
Lemma square_within x y w M : 0 < w -> Rabs x + w <= M -> Rabs y + w <= M -> withinSquare (square x y w) M.
Proof.
  intros Hw Hx Hy q (v1 & v2 & Hin & O). destruct (square_segs _ _ _ _ _ Hin) as [L H]. destruct (square_onSeg v1 v2 q L O) as (t & Ht & -> & ->).
  assert (Bx : - Rabs x <= x <= Rabs x) by (unfold Rabs; destruct (Rcase_abs x); lra). assert (By : - Rabs y <= y <= Rabs y) by (unfold Rabs; destruct (Rcase_abs y); lra).
  destruct H as [[-> ->]|[[-> ->]|[[-> ->]|[-> ->]]]]; cbn [pos mkVertex vx vy]; split; apply Rabs_le; nra.
Qed.

Example C56_squares : let A := square 0 0 2 in let B := square 1 1 2 in
  closedPline A /\ closedPline B /\ indexable A /\ (10 * Z.of_nat (length (vertexes A)) * Z.of_nat (length (vertexes B)) <= 2 ^ 24)%Z /\ smallBulges A /\ smallBulges B /\
  generalPosition A B /\ (exists q, common A B q) /\ simplePath A /\ simplePath B /\ withinSquare A 3 /\ withinSquare B 3.
Proof.
  intros A B. destruct C52_squares as (H1 & H2 & H3 & H4 & H5 & H6 & H7 & H8 & _). repeat (split; [first [assumption|apply square_simplePath; lra]|]).
  split; apply square_within; rewrite ?Rabs_R0, ?Rabs_R1; lra.
Qed.
