(** * C23: getArea is the signed area integral (Green) *)
From Coq Require Import ZArith Reals Lra Lia List Bool Arith Permutation.
From Coquelicot Require Import Coquelicot.
From Verif Require Import Base Num MathUtils PlineSegment SpatialIndex Polyline RGeom Spec PropsMath ArcGeom Polar PropsSegment PropsPolyline.
Import ListNotations.
Open Scope R_scope.

(** ** Specification *)
(** the integrand x dy - y dx of a path *)
Definition green (P : R -> vec) (t : R) : R :=
  vx (P t) * Derive (fun u => vy (P u)) t - vy (P t) * Derive (fun u => vx (P u)) t.

Lemma green_ext (P Q : R -> vec) t : (forall u, P u = Q u) -> green P t = green Q t.
Proof.
  intros E. unfold green. rewrite E.
  rewrite (Derive_ext (fun u => vy (P u)) (fun u => vy (Q u))) by (intros; now rewrite E).
  rewrite (Derive_ext (fun u => vx (P u)) (fun u => vx (Q u))) by (intros; now rewrite E).
  reflexivity.
Qed.

(** the closed form of the points of an arc *)
Lemma arc_green (c p : vec) (th : R) :
  is_RInt (green (fun t => rot c (t * th) p)) 0 1
    (th * ((vx p - vx c) * (vx p - vx c) + (vy p - vy c) * (vy p - vy c)) +
     (vx c * (vy (rot c th p) - vy p) - vy c * (vx (rot c th p) - vx p))).
Proof.
  set (u := vx p - vx c). set (w := vy p - vy c).
  set (X := fun t => vx c + cos (t * th) * u - sin (t * th) * w).
  set (Y := fun t => vy c + sin (t * th) * u + cos (t * th) * w).
  assert (DX : forall t, is_derive X t (th * (- sin (t * th) * u - cos (t * th) * w))).
  { intros t. unfold X. auto_derive; auto. ring. }
  assert (DY : forall t, is_derive Y t (th * (cos (t * th) * u - sin (t * th) * w))).
  { intros t. unfold Y. auto_derive; auto. ring. }
  apply is_RInt_ext with (fun t => X t * (th * (cos (t * th) * u - sin (t * th) * w)) - Y t * (th * (- sin (t * th) * u - cos (t * th) * w))).
  { intros t _. unfold green. f_equal.
    - f_equal. symmetry. apply is_derive_unique. apply DY.
    - f_equal. f_equal. symmetry. apply is_derive_unique. apply DX. }
  set (F := fun t => t * th * (u * u + w * w) + vx c * Y t - vy c * X t).
  assert (DF : forall t, is_derive F t (X t * (th * (cos (t * th) * u - sin (t * th) * w)) - Y t * (th * (- sin (t * th) * u - cos (t * th) * w)))).
  { intros t. unfold F, X, Y. auto_derive; auto.
    pose proof (sin2_cos2 (t * th)) as E. unfold Rsqr in E.
    apply Rminus_diag_uniq. 
    transitivity (th * (u * u + w * w) * (1 - (sin (t * th) * sin (t * th) + cos (t * th) * cos (t * th)))); [ring|].
    rewrite E. ring. }
  assert (Hint : is_RInt (fun t => X t * (th * (cos (t * th) * u - sin (t * th) * w)) - Y t * (th * (- sin (t * th) * u - cos (t * th) * w))) 0 1 (minus (F 1) (F 0))).
  { apply (is_RInt_derive F); [intros t _; apply DF|]. intros t _.
    apply (ex_derive_continuous (fun t => X t * (th * (cos (t * th) * u - sin (t * th) * w)) - Y t * (th * (- sin (t * th) * u - cos (t * th) * w)))).
    unfold X, Y. auto_derive; auto. }
  replace (th * (u * u + w * w) + (vx c * (vy (rot c th p) - vy p) - vy c * (vx (rot c th p) - vx p))) with (minus (F 1) (F 0)); auto.
  unfold minus, plus, opp, F, X, Y. cbn. unfold rot. rcbn. fold u w.
  rewrite !Rmult_1_l, !Rmult_0_l, cos_0, sin_0. unfold u, w. ring.
Qed.

Lemma line_green (p q : vec) :
  is_RInt (green (fun t => lerp p q t)) 0 1 (vx p * vy q - vy p * vx q).
Proof.
  apply is_RInt_ext with (fun _ => vx p * vy q - vy p * vx q).
  { intros t _. unfold green, lerp. cbn [vx vy].
    assert (E1 : Derive (fun u => vy p + u * (vy q - vy p)) t = vy q - vy p).
    { apply is_derive_unique. auto_derive; auto. ring. }
    assert (E2 : Derive (fun u => vx p + u * (vx q - vx p)) t = vx q - vx p).
    { apply is_derive_unique. auto_derive; auto. ring. }
    rewrite E1, E2. rring. }
  generalize (vx p * vy q - vy p * vx q). intros k.
  pose proof (@is_RInt_const R_CompleteNormedModule 0 1 k) as H.
  assert (E : scal (1 - 0) k = k). { unfold scal. cbn. unfold mult. cbn. lra. }
  exact (eq_ind _ (fun z => is_RInt (V := R_NormedModule) (fun _ : R => k) 0 1 z) H _ E).
Qed.

Lemma areaOf_line p b q : Rabs b < 1 / 100000 -> areaOf (p, b, q) = vx p * vy q - vy p * vx q.
Proof.
  intros Hb. unfold areaOf, area_step, at_. cbn [nth vertexes snd].
  unfold px, py, bulgeIsZero. cbn [pos bulge]. rcbn.
  destruct (Rltb (Rabs b) (1 / 100000)) eqn:E; rbool; [|lra]. cbn [negb]. rring.
Qed.

Lemma areaOf_arc p b q : ~ Rabs b < 1 / 100000 -> let c := ctr p q b in
  areaOf (p, b, q) =
    (sweep b * ((vx p - vx c) * (vx p - vx c) + (vy p - vy c) * (vy p - vy c)) +
     (vx c * (vy q - vy p) - vy c * (vx q - vx p))).
Proof.
  intros Hb c. assert (Hn : b <> 0). { intros ->. apply Hb. rewrite Rabs_R0. lra. }
  pose proof (radius_sq (mkVtx p b) (mkVtx q 0) Hn) as HR. rewrite radius_R in HR. cbn [pos bulge] in HR. fold c in HR.
  unfold areaOf, area_step, at_. cbn [nth vertexes snd].
  unfold px, py, bulgeIsZero, bulgeIsNeg, vlength, dot, vsub. cbn [pos bulge]. rcbn.
  destruct (Rltb (Rabs b) (1 / 100000)) eqn:E; rbool; [contradiction|]. cbn [negb].
  assert (Es : (vx p - vx c) * (vx p - vx c) + (vy p - vy c) * (vy p - vy c) =
     chord p q * chord p q * ((b * b + 1) * (b * b + 1) / (16 * (b * b)))).
  { replace (_ + _) with ((vx p - vx c) ^ 2 + (vy p - vy c) ^ 2) by ring. rewrite <- HR.
    destruct (Rabs_cases b) as [[? ->]|[? ->]]; field; lra. }
  rewrite Es. change (sqrt _) with (chord p q).
  assert (Ec : vx c * (vy q - vy p) - vy c * (vx q - vx p) = vx p * vy q - vy p * vx q - chord p q * chord p q * cK b).
  { rewrite chord_sq. unfold c, ctr, cK. cbn [vx vy]. rcbn. field. lra. }
  rewrite Ec. set (d := chord p q). unfold sweep, cK.
  destruct (Rltb b 0) eqn:Eb; rbool.
  - rewrite Rabs_left by lra. rewrite atan_opp. field. lra.
  - rewrite Rabs_right by lra. field. lra.
Qed.

(** each segment contributes the integral of x dy - y dx along it, whatever function
    gives its points *)
Lemma seg_green v1 v2 (P : R -> vec) : (forall t, segPoint v1 v2 t (P t)) ->
  is_RInt (green P) 0 1 (areaOf (seg3 (v1, v2))).
Proof.
  intros HP. unfold seg3. cbn [fst snd].
  destruct (Rlt_dec (Rabs (bulge v1)) (1 / 100000)) as [Hl|Hl].
  - rewrite areaOf_line by auto.
    assert (EP : forall t, P t = lerp (pos v1) (pos v2) t).
    { intros t. apply (proj1 (segPoint_line v1 v2 t (P t) Hl)). apply HP. }
    apply is_RInt_ext with (2 := line_green (pos v1) (pos v2)).
    intros t _. apply green_ext. intros u. now rewrite EP.
  - rewrite areaOf_arc by auto. set (c := ctr (pos v1) (pos v2) (bulge v1)).
    assert (EP : forall t, P t = rot c (t * sweep (bulge v1)) (pos v1)).
    { intros t. apply (proj1 (segPoint_arc v1 v2 t (P t) Hl)). apply HP. }
    pose proof (arc_green c (pos v1) (sweep (bulge v1))) as G.
    assert (Hn : bulge v1 <> 0) by (now apply notLine_ne).
    pose proof (ctr_spec (pos v1) (pos v2) (bulge v1) Hn) as Hc. unfold arcCentre in Hc. fold c in Hc. rewrite Hc in G.
    apply is_RInt_ext with (2 := G).
    intros t _. apply green_ext. intros u. now rewrite EP.
Qed.

(** ** C23 *)
(** [P v1 v2] is any parametrisation of the segments v1->v2; the sum ranges over the
    segments of the path in path order, the closing one last *)
Theorem C23_area_is_line_integral (pl : polyline) (P : vertex -> vertex -> R -> vec) :
  isClosed pl = true ->
  (forall v1 v2 t, In (v1, v2) (pathSegs pl) -> segPoint v1 v2 t (P v1 v2 t)) ->
  (forall v1 v2, In (v1, v2) (pathSegs pl) -> ex_RInt (green (P v1 v2)) 0 1) /\
  getArea pl = 1 / 2 * fold_right Rplus 0 (map (fun e => RInt (green (P (fst e) (snd e))) 0 1) (pathSegs pl)).
Proof.
  intros Hc HP. split.
  - intros v1 v2 H. eexists. apply seg_green. intros t. auto.
  - rewrite getArea_sum by auto. unfold Rdiv. rewrite Rmult_comm, Rmult_1_l. f_equal. fold (sumR (map (fun e => RInt (green (P (fst e) (snd e))) 0 1) (pathSegs pl))). f_equal.
    unfold trace. rewrite map_map. apply map_ext_in. intros [v1 v2] H. symmetry. cbn [fst snd].
    apply is_RInt_unique. apply seg_green. intros t. auto.
Qed.

(** every segment has such a parametrisation *)
Theorem C23_parametrisation_exists (v1 v2 : vertex) : exists P : R -> vec, forall t, segPoint v1 v2 t (P t).
Proof.
  destruct (Rlt_dec (Rabs (bulge v1)) (1 / 100000)) as [Hl|Hl].
  - exists (lerp (pos v1) (pos v2)). intros t. now apply (segPoint_line v1 v2 t _ Hl).
  - exists (fun t => rot (ctr (pos v1) (pos v2) (bulge v1)) (t * sweep (bulge v1)) (pos v1)). intros t.
    now apply (segPoint_arc v1 v2 t _ Hl).
Qed.

Theorem C23_zero (pl : polyline) : isClosed pl = false \/ (length (vertexes pl) < 2)%nat -> getArea pl = 0.
Proof.
  intros H. unfold getArea, size. destruct H as [->|H]; [cbn [negb orb]; now rcbn|].
  apply Nat.ltb_lt in H. rewrite H, orb_true_r. now rcbn.
Qed.

(** moving every vertex by the same vector does not change the area *)
Lemma sumR_plus {A} (f g : A -> R) l : sumR (map (fun e => f e + g e) l) = sumR (map f l) + sumR (map g l).
Proof. induction l as [|a l IH]; cbn [map]; [unfold sumR; cbn; lra|]. rewrite !sumR_cons, IH. lra. Qed.

Definition moveV (d : vec) (v : vertex) : vertex := mkVtx (mkV (vx (pos v) + vx d) (vy (pos v) + vy d)) (bulge v).

Lemma openSegs_map (f : vertex -> vertex) v vs : openSegs (f v) (map f vs) = map (fun e => (f (fst e), f (snd e))) (openSegs v vs).
Proof. revert v. induction vs as [|w vs IH]; intros v; cbn [openSegs map fst snd]; [auto|]. now rewrite IH. Qed.

Lemma last_map' {A B} (f : A -> B) l d : last (map f l) (f d) = f (last l d).
Proof. induction l as [|a l IH]; [reflexivity|]. destruct l as [|a' l]; [reflexivity|]. apply IH. Qed.

Lemma pathSegs_map (f : vertex -> vertex) b l : pathSegs (mkPline b (map f l)) = map (fun e => (f (fst e), f (snd e))) (pathSegs (mkPline b l)).
Proof.
  unfold pathSegs. cbn [vertexes isClosed]. destruct l as [|v [|w l]]; [reflexivity|reflexivity|].
  cbn [map]. change (f w :: map f l) with (map f (w :: l)). rewrite openSegs_map, map_app. f_equal.
  destruct b; cbn [map fst snd]; [|reflexivity]. f_equal. f_equal.
  apply (last_map' f (w :: l) v).
Qed.

Lemma areaOf_move d e : areaOf (seg3 (moveV d (fst e), moveV d (snd e))) =
  areaOf (seg3 e) + (vx d * (vy (pos (snd e)) - vy (pos (fst e))) - vy d * (vx (pos (snd e)) - vx (pos (fst e)))).
Proof.
  destruct e as [[p b] [q b']]. unfold seg3, moveV. cbn [fst snd pos bulge].
  unfold areaOf, area_step, at_. cbn [nth vertexes snd].
  unfold px, py, bulgeIsZero, bulgeIsNeg, vlength, dot, vsub. cbn [pos bulge]. rcbn.
  replace (vx q + vx d - (vx p + vx d)) with (vx q - vx p) by ring.
  replace (vy q + vy d - (vy p + vy d)) with (vy q - vy p) by ring.
  destruct (negb _); ring.
Qed.

Lemma telescope v vs f : sumR (map (fun e : vertex * vertex => f (snd e) - f (fst e)) (openSegs v vs)) = f (last (v :: vs) v) - f v.
Proof.
  revert v. induction vs as [|w vs IH]; intros v; cbn [openSegs map]; [unfold sumR; cbn; lra|].
  rewrite sumR_cons, IH. cbn [fst snd]. rewrite (last_default (w :: vs) w v) by discriminate.
  change (last (v :: w :: vs) v) with (last (w :: vs) v). lra.
Qed.

Lemma closed_telescope pl f : isClosed pl = true ->
  sumR (map (fun e : vertex * vertex => f (snd e) - f (fst e)) (pathSegs pl)) = 0.
Proof.
  intros Hc. unfold pathSegs. rewrite Hc. destruct (vertexes pl) as [|v [|w l]]; try reflexivity.
  rewrite map_app, sumR_app, telescope. cbn [map]. rewrite sumR_cons. cbn [fst snd]. unfold sumR. cbn [fold_right]. 
  change (last (v :: w :: l) v) with (last (w :: l) v). lra.
Qed.

Theorem C23_translation_invariant (pl : polyline) (d : vec) :
  getArea (mkPline (isClosed pl) (map (moveV d) (vertexes pl))) = getArea pl.
Proof.
  destruct (isClosed pl) eqn:Hc; [|now rewrite !C23_zero by (cbn; auto)].
  rewrite !getArea_sum by auto. f_equal. unfold trace. rewrite pathSegs_map.
  replace (mkPline true (vertexes pl)) with pl by (destruct pl; cbn in *; congruence).
  rewrite !map_map. rewrite (map_ext _ _ (areaOf_move d)). rewrite sumR_plus.
  set (f := fun v : vertex => vx d * vy (pos v) - vy d * vx (pos v)).
  rewrite (map_ext (fun e : vertex * vertex => vx d * (vy (pos (snd e)) - vy (pos (fst e))) - vy d * (vx (pos (snd e)) - vx (pos (fst e)))) (fun e => f (snd e) - f (fst e))) by (intros [a b]; unfold f; cbn [fst snd]; ring).
  rewrite closed_telescope by auto. lra.
Qed.

(** scaling every coordinate by s multiplies the area by s*s *)
Definition scaleV (s : R) (v : vertex) : vertex := mkVtx (mkV (s * vx (pos v)) (s * vy (pos v))) (bulge v).

Lemma areaOf_scale s e : areaOf (seg3 (scaleV s (fst e), scaleV s (snd e))) = s * s * areaOf (seg3 e).
Proof.
  destruct e as [[p b] [q b']]. unfold seg3, scaleV. cbn [fst snd pos bulge].
  destruct (Rlt_dec (Rabs b) (1 / 100000)) as [Hl|Hl].
  - rewrite !areaOf_line by auto. cbn [vx vy]. ring.
  - rewrite !areaOf_arc by auto. unfold ctr. cbn [vx vy]. rcbn. field.
Qed.

Theorem C23_scales_quadratically (pl : polyline) (s : R) :
  getArea (mkPline (isClosed pl) (map (scaleV s) (vertexes pl))) = s * s * getArea pl.
Proof.
  destruct (isClosed pl) eqn:Hc; [|rewrite !C23_zero by (cbn; auto); rcbn; lra].
  rewrite !getArea_sum by auto. unfold trace. rewrite pathSegs_map.
  replace (mkPline true (vertexes pl)) with pl by (destruct pl; cbn in *; congruence).
  rewrite !map_map. rewrite (map_ext _ _ (areaOf_scale s)).
  assert (E : forall l : list (vertex * vertex), sumR (map (fun x => s * s * areaOf (seg3 x)) l) = s * s * sumR (map (fun x => areaOf (seg3 x)) l)).
  { induction l as [|a l IH]; cbn [map]; [unfold sumR; cbn; rcbn; lra|]. rewrite !sumR_cons, IH. rring. }
  rewrite E. rcbn. field.
Qed.

(** the same for the library's own scaling and translation *)
Theorem C23_scalePolyline (pl : polyline) (s : R) : getArea (scalePolyline pl s) = s * s * getArea pl.
Proof.
  rewrite <- C23_scales_quadratically. f_equal. unfold scalePolyline. f_equal. apply map_ext.
  intros v. unfold scaleV, vscale. f_equal. apply vec_eq; rcbn; lra.
Qed.

Theorem C23_translatePolyline (pl : polyline) (d : vec) : getArea (translatePolyline pl d) = getArea pl.
Proof.
  rewrite <- (C23_translation_invariant pl d). f_equal. unfold translatePolyline. f_equal. apply map_ext.
  intros v. unfold moveV, mkVertex, px, py. f_equal. apply vec_eq; rcbn; lra.
Qed.

(** starting the same closed path at another vertex does not change the area *)
Theorem C23_start_vertex (l l' : list vertex) :
  getArea (mkPline true (l ++ l')) = getArea (mkPline true (l' ++ l)).
Proof.
  rewrite !getArea_sum by auto. f_equal. apply sumR_perm, Permutation_map. unfold trace. apply Permutation_map.
  unfold pathSegs. cbn [vertexes isClosed]. 
  destruct l as [|a l]; [now rewrite app_nil_r|]. destruct l' as [|a' l']; [now rewrite app_nil_r|].
  cbn [app]. 
  assert (E : forall (x : vertex) xs y ys, match xs ++ y :: ys with [] => [] | _ :: _ => openSegs x (xs ++ y :: ys) ++ [(last (xs ++ y :: ys) x, x)] end
     = openSegs x xs ++ (last (x :: xs) x, y) :: openSegs y ys ++ [(last (y :: ys) y, x)]).
  { intros x xs y ys. rewrite openSegs_app. 
    replace (last (xs ++ y :: ys) x) with (last (y :: ys) y).
    2:{ rewrite (last_default (y :: ys) y x) by discriminate.
        clear. induction xs as [|z xs IH]; [reflexivity|]. cbn [app]. rewrite IH. destruct xs; reflexivity. }
    rewrite <- app_assoc. cbn [app]. destruct (xs ++ y :: ys) eqn:E; [destruct xs; discriminate|reflexivity]. }
  rewrite (E a l a' l'), (E a' l' a l).
  set (A := openSegs a l). set (B := openSegs a' l'). set (x := (last (a :: l) a, a')). set (y := (last (a' :: l') a', a)).
  assert (E1 : Permutation (A ++ x :: B ++ [y]) (x :: y :: A ++ B)).
  { eapply perm_trans; [apply Permutation_sym, Permutation_middle|]. apply perm_skip.
    rewrite app_assoc. eapply perm_trans; [apply Permutation_app_comm|]. reflexivity. }
  assert (E2 : Permutation (B ++ y :: A ++ [x]) (y :: x :: B ++ A)).
  { eapply perm_trans; [apply Permutation_sym, Permutation_middle|]. apply perm_skip.
    rewrite app_assoc. eapply perm_trans; [apply Permutation_app_comm|]. reflexivity. }
  eapply perm_trans; [exact E1|]. eapply perm_trans; [|apply Permutation_sym, E2].
  eapply perm_trans; [apply perm_swap|]. do 2 apply perm_skip. apply Permutation_app_comm.
Qed.

(** non-vacuity: the unit disc as two half circles has area PI; reversed, -PI *)
Example C23_disc : getArea (mkPline true [mkVertex (-1) 0 1; mkVertex 1 0 1]) = PI.
Proof.
  rewrite getArea_sum by auto. unfold trace, pathSegs. cbn [vertexes isClosed openSegs app last map].
  assert (Ha : ~ Rabs 1 < 1 / 100000) by (rewrite Rabs_R1; lra).
  unfold seg3, mkVertex, sumR. cbn [fst snd pos bulge fold_right]. rewrite !areaOf_arc by auto.
  unfold ctr, cK, sweep. cbn [vx vy]. rcbn. rewrite atan_1. field.
Qed.
