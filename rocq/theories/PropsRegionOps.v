(** * C52: boolean operations compute the right region *)
From Coq Require Import ZArith Reals Lra Lia Psatz List Bool Arith Permutation Sorted.
From Coquelicot Require Import Coquelicot.
From Verif Require Import Base Num MathUtils PlineSegment SpatialIndex Polyline Intersects Combine StdLaws RGeom Spec PropsMath ArcGeom Polar PropsSegment PropsClosest PropsIntr PropsPlineIntr PropsPolyline PropsArea Turning PropsWinding PropsPlineIndex PropsFindIntr PropsRegion PropsCoincident PropsSlices PropsStitch PropsCombine PropsPieces PropsTrace PropsBoolOps PropsCover PropsEuler PropsBalance.
Import ListNotations.
Open Scope R_scope.

(** ** The turning of a piece of a segment *)
Lemma piece_speed v1 v2 a b u w p s : piece v1 v2 a b u w -> angSpeed p (segPath u w) s = (b - a) * angSpeed p (segPath v1 v2) (a + s * (b - a)).
Proof.
  intros H. destruct (seg_smooth v1 v2 (segPath v1 v2) (segPath_ok v1 v2)) as [DX DY].
  rewrite (angSpeed_ext p _ (fun s => segPath v1 v2 (a + s * (b - a))) s H). unfold angSpeed.
  assert (K : forall f : R -> R, (forall t, ex_derive f t) -> Derive (fun u => f (a + u * (b - a))) s = (b - a) * Derive f (a + s * (b - a))).
  { intros f Df. rewrite (Derive_comp f (fun u => a + u * (b - a)) s); [|apply Df|auto_derive; auto]. f_equal. apply is_derive_unique. auto_derive; auto. ring. }
  rewrite (K (fun t => vx (segPath v1 v2 t)) DX), (K (fun t => vy (segPath v1 v2 t)) DY). unfold Rdiv. rring.
Qed.

Lemma seg_int_part v1 v2 p a b : Rabs (bulge v1) <= 1 -> ~ onSeg v1 v2 p -> 0 <= a -> a <= b -> b <= 1 -> ex_RInt (angSpeed p (segPath v1 v2)) a b.
Proof.
  intros Hb Ho Ha Hab Hb1. apply (ex_RInt_Chasles_1 (V := R_CompleteNormedModule)) with (c := 1); [lra|]. apply (ex_RInt_Chasles_2 (V := R_CompleteNormedModule)) with (a := 0); [lra|].
  eexists. apply (seg_int v1 v2 p Hb Ho).
Qed.

Lemma piece_turn v1 v2 a b u w p : Rabs (bulge v1) <= 1 -> ~ onSeg v1 v2 p -> 0 <= a -> a < b -> b <= 1 -> piece v1 v2 a b u w ->
  RInt (angSpeed p (segPath u w)) 0 1 = RInt (angSpeed p (segPath v1 v2)) a b.
Proof.
  intros Hb Ho Ha Hab Hb1 H. apply (is_RInt_unique (V := R_CompleteNormedModule)).
  apply (is_RInt_ext (V := R_NormedModule) (fun y => scal (b - a) (angSpeed p (segPath v1 v2) ((b - a) * y + a)))).
  - intros s _. rewrite (piece_speed v1 v2 a b u w p s H). unfold scal. cbn. unfold mult. cbn. do 2 f_equal. ring.
  - apply (is_RInt_comp_lin (V := R_NormedModule)). replace ((b - a) * 0 + a) with a by ring. replace ((b - a) * 1 + a) with b by ring.
    apply (RInt_correct (V := R_CompleteNormedModule)). apply seg_int_part; auto. lra.
Qed.

(** ** Sums over filters *)
Lemma sum_filter {X} (f : X -> R) (c : X -> bool) l : sumR (map f (filter c l)) + sumR (map f (filter (fun x => negb (c x)) l)) = sumR (map f l).
Proof. induction l as [|x l IH]; [cbn; lra|]. cbn [filter map]. destruct (c x); cbn [negb map]; rewrite !sumR_cons; lra. Qed.

Lemma filter_flat_map {X Y} (c : Y -> bool) (g : X -> list Y) l : flat_map (fun x => filter c (g x)) l = filter c (flat_map g l).
Proof. induction l as [|x l IH]; [reflexivity|]. cbn [flat_map]. now rewrite IH, filter_app. Qed.

Lemma turnT_flat p (ls : list (list vertex)) : turnT p (flat_map traceOf ls) = sumR (map (fun l => turnT p (traceOf l)) ls).
Proof. unfold turnT. now rewrite sum_flat_map. Qed.
Lemma netT_flat x (ls : list (list vertex)) : netT (flat_map traceOf ls) x = sumR (map (fun l => netT (traceOf l) x) ls).
Proof. unfold netT. now rewrite sum_flat_map. Qed.

(** the net of a trace: it starts at its start and ends at its end *)
Lemma netT_trace x l : l <> [] -> netT (traceOf l) x = ind x (pos (hd vdflt l)) - ind x (pos (last l vdflt)).
Proof.
  destruct l as [|v l]; [congruence|]. intros _. unfold traceOf. cbn [segsOf hd]. revert v. induction l as [|w l IH]; intros v; [unfold netT; cbn; lra|].
  cbn [openSegs map]. unfold netT. cbn [map]. rewrite sumR_cons. fold (netT (map seg3 (openSegs w l)) x). rewrite IH. unfold seg3. cbn [fst snd].
  change (last (v :: w :: l) vdflt) with (last (w :: l) vdflt). lra.
Qed.

Lemma accepted_negb pr l : (2 <= length l)%nat -> accepted (fun p => negb (pr p)) l = negb (accepted pr l).
Proof. intros H. unfold accepted. rewrite <- rev_length in H. destruct (rev l) as [|b [|a l']]; [cbn in H; lia|cbn in H; lia|reflexivity]. Qed.

(** the segments in order of their start *)
Lemma segs_perm pl : closedPline pl -> Permutation (map (fun k => (vert pl k 0, vert pl k 1)) (seq 0 (length (vertexes pl)))) (pathSegs pl).
Proof.
  intros [Hc H2]. eapply perm_trans; [|apply vsegs_perm]. unfold vsegs, segs. set (n := length (vertexes pl)) in *. rewrite (proj2 (Nat.ltb_ge n 2)), Hc by lia.
  replace n with (n - 1 + 1)%nat at 1 by lia. rewrite seq_app, map_app. cbn [seq map Nat.add]. eapply perm_trans; [apply Permutation_app_comm|]. rewrite map_app. apply Permutation_app.
  - cbn [map fst snd]. unfold vert. fold n. rewrite Nat.add_0_r, Nat.mod_small by lia. replace (n - 1 + 1)%nat with n by lia. rewrite Nat.mod_same by lia. apply Permutation_refl.
  - rewrite map_map. cbn [fst snd]. erewrite map_ext_in; [apply Permutation_refl|]. intros k Hk. apply in_seq in Hk. unfold vert. fold n. rewrite Nat.add_0_r, !Nat.mod_small by lia. reflexivity.
Qed.

(** ** One of the two polylines, its kept and its dropped stretches *)
Section Side.
Context {SL : StdLib} {SLaws : StdLaws SL}.
Context (pl other : polyline) (X : vec -> Prop) (cs : list (nat * slicePoint)).
Hypothesis (Cpl : closedPline pl) (Spl : smallBulges pl) (So : smallBulges other) (Hsp : spaced pl X)
  (Hap : forall q q', X q -> X q' -> q <> q' -> wellApart q q').
Hypothesis Hsound : forall k c, In (k, c) cs -> (k < length (vertexes pl))%nat /\ spStart c = false /\ onSeg (vert pl k 0) (vert pl k 1) (spPos c) /\ X (spPos c).
Hypothesis Hcompl : forall k q, (k < length (vertexes pl))%nat -> onSeg (vert pl k 0) (vert pl k 1) q -> onPath other q -> In (k, mkSP q false) cs.
Hypothesis Hne : exists k c, In (k, c) cs.
Context (f : Z -> bool).

Definition keptS : list (list vertex) := flat_map (fun k => filter (accepted (fun p => f (getWindingNumber other p))) (stretches pl cs k)) (seq 0 (length (vertexes pl))).
Definition droppedS : list (list vertex) := flat_map (fun k => filter (fun l => negb (accepted (fun p => f (getWindingNumber other p)) l)) (stretches pl cs k)) (seq 0 (length (vertexes pl))).

Let HS := side_sep pl X cs Cpl Hsp Hsound.
Let HC := side_cut pl X cs Cpl Hsp Hsound.
Let HP := side_pair pl X cs Cpl Hsp Hap Hsound.

Lemma run_of l : In l keptS \/ In l droppedS -> exists k a d b, (k < length (vertexes pl))%nat /\ In l (stretches pl cs k) /\ run pl k a d b l.
Proof.
  intros H. assert (G : exists k, (k < length (vertexes pl))%nat /\ In l (stretches pl cs k)).
  { unfold keptS, droppedS in H. rewrite !in_flat_map in H. destruct H as [(k & Hk & H)|(k & Hk & H)]; apply filter_In in H; apply in_seq in Hk; exists k; (split; [lia|tauto]). }
  destruct G as (k & Hk & Hl). destruct (stretch_run pl other cs (proj2 Cpl) Spl HS HC HP Hcompl k l Hk Hl) as (a & d & b & R & _). exists k, a, d, b. auto.
Qed.

Lemma run_shape l : In l keptS \/ In l droppedS -> (2 <= length l)%nat /\ (length l = 2%nat -> pos (hd vdflt l) <> pos (last l vdflt)) /\ okT (traceOf l).
Proof.
  intros H. destruct (run_of l H) as (k & a & d & b & Hk & _ & (Ha & Hb & R)). destruct d as [|d'].
  - destruct R as (u & w & -> & Hab & P & Bu). split; [cbn; lia|]. split.
    + intros _. cbn [hd last]. rewrite (piece_start _ _ _ _ _ _ P), (piece_end _ _ _ _ _ _ P). intros E. apply segPath_inj in E; [lra|apply (vert_small pl (proj2 Cpl) Spl)|apply far_ne, (vert_far pl cs (proj2 Cpl) HS)|auto|auto].
    + intros e He. cbn in He. destruct He as [<-|[]]. exact Bu.
  - destruct R as (w & us & e & -> & Ha1 & Hb0 & Pw & Bw & P & Bu & Eu). split; [rewrite !app_length; cbn [length]; lia|]. split; [rewrite !app_length; cbn [length]; rewrite map_length, seq_length; lia|].
    assert (G : forall vs v, Rabs (bulge v) <= 1 -> (forall x, In x vs -> Rabs (bulge x) <= 1) -> okT (map seg3 (openSegs v (vs ++ [us; e])))).
    { induction vs as [|x vs IH]; intros v Hv Hvs.
      - intros y Hy. cbn in Hy. destruct Hy as [<-|[<-|[]]]; [exact Hv|exact Bu].
      - cbn [app openSegs map]. intros y [<-|Hy]; [exact Hv|]. apply (IH x); auto; [apply Hvs; now left|intros z Hz; apply Hvs; now right]. }
    unfold traceOf. cbn [app segsOf]. apply G; [exact Bw|]. intros x Hx. apply in_map_iff in Hx. destruct Hx as (i & <- & _). apply (vert_small pl (proj2 Cpl) Spl).
Qed.

Lemma kept_points l q e : In l keptS -> In e (traceOf l) -> on3 e q -> onPath pl q /\ (onPath other q \/ f (getWindingNumber other q) = true).
Proof.
  intros H He O. unfold keptS in H. apply in_flat_map in H. destruct H as (k & Hk & H). apply in_seq in Hk. apply filter_In in H. destruct H as [Hl Ha].
  destruct (side_stretch pl other X cs Cpl Spl So Hsp Hap Hsound Hcompl k l f ltac:(lia) Hl Ha) as (_ & _ & _ & Q). apply Q. apply onPath_trace. exists e. split; [|auto]. now rewrite trace_open.
Qed.

Lemma dropped_points l q e : In l droppedS -> In e (traceOf l) -> on3 e q -> onPath pl q /\ (onPath other q \/ f (getWindingNumber other q) = false).
Proof.
  intros H He O. destruct (run_shape l (or_intror H)) as (L2 & _). unfold droppedS in H. apply in_flat_map in H. destruct H as (k & Hk & H). apply in_seq in Hk. apply filter_In in H. destruct H as [Hl Ha].
  rewrite <- (accepted_negb _ l L2) in Ha.
  destruct (side_stretch pl other X cs Cpl Spl So Hsp Hap Hsound Hcompl k l (fun z => negb (f z)) ltac:(lia) Hl Ha) as (_ & _ & _ & Q). 
  destruct (Q q) as [Q1 [Q2|Q2]]; [apply onPath_trace; exists e; split; [now rewrite trace_open|auto]|auto|]. apply negb_true_iff in Q2. auto.
Qed.

Lemma kept_ends l : In l keptS -> X (pos (hd vdflt l)) /\ X (pos (last l vdflt)).
Proof.
  intros H. unfold keptS in H. apply in_flat_map in H. destruct H as (k & Hk & H). apply in_seq in Hk. apply filter_In in H. destruct H as [Hl Ha].
  destruct (side_stretch pl other X cs Cpl Spl So Hsp Hap Hsound Hcompl k l f ltac:(lia) Hl Ha) as (X1 & X2 & _). auto.
Qed.

(** an additive quantity of the kept and of the dropped stretches adds up to that of the polyline *)
Lemma side_cover (mu : vec * R * vec -> R) (M : nat -> R -> R -> R) :
  (forall k a b c, (k < length (vertexes pl))%nat -> 0 <= a -> a <= b -> b <= c -> c <= 1 -> M k a c = M k a b + M k b c) ->
  (forall k a b u w, (k < length (vertexes pl))%nat -> 0 <= a -> a < b -> b <= 1 -> piece (vert pl k 0) (vert pl k 1) a b u w -> Rabs (bulge u) <= 1 -> mu (seg3 (u, w)) = M k a b) ->
  sumR (map mu (flat_map traceOf keptS)) + sumR (map mu (flat_map traceOf droppedS)) = sumR (map (fun k => M k 0 1) (seq 0 (length (vertexes pl)))).
Proof.
  intros Ma Mp. rewrite <- (cover pl cs (proj2 Cpl) Spl HS HC HP mu M Ma Mp Hne). rewrite (sum_flat_map mu traceOf keptS), (sum_flat_map mu traceOf droppedS). unfold keptS, droppedS. rewrite !filter_flat_map. apply (sum_filter (muL mu)).
Qed.

Lemma side_turn p : ~ onPath pl p -> turnT p (flat_map traceOf keptS) + turnT p (flat_map traceOf droppedS) = 2 * PI * IZR (getWindingNumber pl p).
Proof.
  intros Ho. assert (Hoff : forall k, (k < length (vertexes pl))%nat -> ~ onSeg (vert pl k 0) (vert pl k 1) p).
  { intros k Hk O. apply Ho. destruct (seg_at pl k (proj1 Cpl) (proj2 Cpl) Hk) as (_ & _ & Hin). exists (vert pl k 0), (vert pl k 1). auto. }
  rewrite <- (turnSum_winding pl p (proj1 Cpl) Spl Ho). unfold turnT.
  rewrite (side_cover (turn1 p) (fun k a b => RInt (angSpeed p (segPath (vert pl k 0) (vert pl k 1))) a b)).
  - unfold turnSum. fold (sumR (map (fun e => RInt (angSpeed p (segPath (fst e) (snd e))) 0 1) (pathSegs pl))). rewrite <- (sumR_perm _ _ (Permutation_map _ (segs_perm pl Cpl))), map_map. reflexivity.
  - intros k a b c Hk Ha Hab Hbc Hc. pose proof (vert_small pl (proj2 Cpl) Spl k 0) as Bk. symmetry. apply (RInt_Chasles (V := R_CompleteNormedModule)); apply seg_int_part; auto; lra.
  - intros k a b u w Hk Ha Hab Hb P Bu. rewrite turn1_seg3. apply piece_turn; auto. apply (vert_small pl (proj2 Cpl) Spl).
Qed.

Lemma side_net x : netT (flat_map traceOf keptS ++ flat_map traceOf droppedS) x = 0.
Proof.
  rewrite netT_app. unfold netT. rewrite (side_cover (fun e => ind x (fst (fst e)) - ind x (snd e)) (fun k a b => ind x (seg pl k a) - ind x (seg pl k b))).
  - set (n := length (vertexes pl)). rewrite (sum_ext _ (fun k => ind x (pos (vert pl k 0)) + - ind x (pos (vert pl (S k) 0)))).
    2:{ intros k _. unfold seg. rewrite segPath_0, segPath_1. replace (vert pl k 1) with (vert pl (S k) 0); [lra|]. unfold vert. do 2 f_equal. lia. }
    rewrite sum_add. assert (E : sumR (map (fun k => - ind x (pos (vert pl (S k) 0))) (seq 0 n)) = - sumR (map (fun k => ind x (pos (vert pl k 0))) (seq 1 n))).
    { rewrite <- sumR_map_opp, map_map, <- seq_shift, map_map. reflexivity. }
    rewrite E, (sum_period n ltac:(unfold n; destruct Cpl; lia) (fun k => ind x (pos (vert pl k 0))) 1); [lra|]. intros i. do 2 f_equal. unfold vert. fold n. f_equal. replace (i + n + 0)%nat with (i + 0 + 1 * n)%nat by lia. apply Nat.mod_add. destruct Cpl. unfold n. lia.
  - intros k a b c _ _ _ _ _. lra.
  - intros k a b u w _ _ _ _ P _. unfold seg3, seg. cbn [fst snd]. now rewrite (piece_start _ _ _ _ _ _ P), (piece_end _ _ _ _ _ _ P).
Qed.
End Side.

(** ** Specification *)
(** 1 for counterclockwise, -1 for clockwise polylines *)
Definition orient (pl : polyline) : Z := if Rlt_dec (getArea pl) 0 then (-1)%Z else 1%Z.

(** the polyline winds once around the points inside it, in the direction given by the sign of its area, and not at all around the others *)
Definition simpleLoop (pl : polyline) : Prop := forall q, ~ onPath pl q -> getWindingNumber pl q = 0%Z \/ getWindingNumber pl q = orient pl.

(** how often a family of polylines winds around a point *)
Definition windingSum (l : list polyline) (q : vec) : Z := fold_right Z.add 0%Z (map (fun p => getWindingNumber p q) l).

Lemma windingSum_app l l' q : windingSum (l ++ l') q = (windingSum l q + windingSum l' q)%Z.
Proof. unfold windingSum. induction l as [|p l IH]; [reflexivity|]. cbn [app map fold_right]. rewrite IH. lia. Qed.

Lemma windingSum_filter (c : polyline -> bool) l q : (windingSum (filter (fun p => negb (c p)) l) q + windingSum (filter c l) q = windingSum l q)%Z.
Proof. unfold windingSum. induction l as [|p l IH]; [reflexivity|]. cbn [filter map fold_right]. destruct (c p); cbn [negb map fold_right]; lia. Qed.

Lemma trace_small p : closedPline p -> okT (trace p) -> smallBulges p.
Proof.
  intros [Hc H2] K. apply List.Forall_forall. intros v Hv. apply (In_nth _ _ vdflt) in Hv. destruct Hv as (i & Hi & Ev). destruct (seg_at p i Hc H2 Hi) as (E0 & _ & Hin).
  assert (E : vert p i 0 = v) by (rewrite E0; exact Ev). rewrite E in Hin. exact (K _ (in_map seg3 _ _ Hin)).
Qed.

(** the winding numbers of closed polylines add up to the turning of their segments *)
Lemma windingSum_turn l q : List.Forall closedPline l -> okT (flat_map trace l) -> (forall p, In p l -> ~ onPath p q) -> turnT q (flat_map trace l) = 2 * PI * IZR (windingSum l q).
Proof.
  induction l as [|p l IH]; intros Hc K O; [unfold windingSum, turnT; cbn; lra|]. inversion Hc. subst. cbn [flat_map]. rewrite turnT_app.
  assert (K1 : okT (trace p)) by (intros e He; apply K; cbn [flat_map]; apply in_or_app; now left). rewrite IH; auto.
  - unfold trace. rewrite turnT_path, turnSum_winding; [|apply H1|now apply trace_small|apply O; now left]. change (windingSum (p :: l) q) with (getWindingNumber p q + windingSum l q)%Z. rewrite plus_IZR. ring.
  - intros e He. apply K. cbn [flat_map]. apply in_or_app. now right.
  - intros p' Hp. apply O. now right.
Qed.

Lemma traceOf_trace s : isClosed s = false -> traceOf (vertexes s) = trace s.
Proof. destruct s as [c l]. cbn. intros ->. symmetry. apply trace_open. Qed.

Lemma net_of slices x : (forall s, In s slices -> vertexes s <> []) -> net slices (seq 0 (length slices)) x = netT (flat_map (fun s => traceOf (vertexes s)) slices) x.
Proof.
  intros H. unfold netT. rewrite sum_flat_map. unfold net. fold (netT).
  assert (G : forall pre l, slices = pre ++ l -> sumR (map (fun i => ind x (startOf slices i) - ind x (endOf slices i)) (seq (length pre) (length l))) = sumR (map (fun s => netT (traceOf (vertexes s)) x) l)).
  { intros pre l. revert pre. induction l as [|s l IH]; intros pre Ep; [reflexivity|]. cbn [length seq map]. rewrite !sumR_cons. specialize (IH (pre ++ [s])). rewrite app_length, Nat.add_1_r in IH. rewrite IH by (now rewrite <- app_assoc). f_equal.
    rewrite netT_trace by (apply H; rewrite Ep; apply in_or_app; right; now left). unfold startOf, endOf, sliceAt. rewrite Ep, app_nth2, Nat.sub_diag by lia. reflexivity. }
  apply (G [] slices eq_refl).
Qed.

(** *** The selectors, when there are no coincident slices *)
Lemma union_chooses N cur avail : (cur < N)%nat -> avail <> [] -> (forall c, In c avail -> (c < N)%nat) -> exists c, unionAndIntersectSelector N cur avail = Ok (Some c) /\ In c avail.
Proof.
  intros Hc Hne Ha. destruct avail as [|c l]; [congruence|]. exists c. split; [|now left]. unfold unionAndIntersectSelector. cbn [find]. rewrite (proj2 (Nat.ltb_lt c N)); [reflexivity|]. apply Ha. now left.
Qed.

Lemma xor_chooses sb N cur avail : (cur < N)%nat -> avail <> [] -> (forall c, In c avail -> (c < N)%nat) -> exists c, excludeAndXORSelector sb N N cur avail = Ok (Some c) /\ In c avail.
Proof.
  intros Hc Hne Ha. destruct avail as [|c l]; [congruence|]. set (av := c :: l) in *. unfold excludeAndXORSelector. rewrite (proj2 (Nat.leb_gt N cur) Hc).
  destruct (cur <? sb)%nat; match goal with |- context [find ?P av] => destruct (find P av) as [x|] eqn:E end;
    try (exists x; split; [reflexivity|]; apply find_some in E; apply E); exists c; (split; [reflexivity|now left]).
Qed.

Section Ops.
Context {SL : StdLib} {SLaws : StdLaws SL}.
Context (A B : polyline) (intrs : list pIntr).
Hypothesis (CA : closedPline A) (CB : closedPline B) (SA : smallBulges A) (SB : smallBulges B) (GP : generalPosition A B) (LA : simpleLoop A) (LB : simpleLoop B).
Hypothesis Hs : forall x, In x intrs -> (sIndex1 x < length (vertexes A))%nat /\ (sIndex2 x < length (vertexes B))%nat /\
     onSeg (vert A (sIndex1 x) 0) (vert A (sIndex1 x) 1) (ipos x) /\ onSeg (vert B (sIndex2 x) 0) (vert B (sIndex2 x) 1) (ipos x).
Hypothesis Hc : forall i j q, (i < length (vertexes A))%nat -> (j < length (vertexes B))%nat -> onSeg (vert A i 0) (vert A i 1) q -> onSeg (vert B j 0) (vert B j 1) q -> In (mkIntr i j q) intrs.
Hypothesis Hne : intrs <> [].

Let cwA := (getArea A <? t0)%t.
Let cwB := (getArea B <? t0)%t.
Let ci := mkInfo [] intrs [] [] [] cwA cwB.
Context (gA gB : bool -> bool) (opp : bool).
Let inv := negb (Bool.eqb opp (plineOpposingDirections ci)).
Let fA := fun w => gA (negb (w =? 0)%Z).
Let fB := fun w => gB (negb (w =? 0)%Z).
Let KA := flat_map traceOf (keptS A B (cuts ci false) fA).
Let NA := flat_map traceOf (droppedS A B (cuts ci false) fA).
Let KB := flat_map traceOf (keptS B A (cuts ci true) fB).
Let NB := flat_map traceOf (droppedS B A (cuts ci true) fB).

Lemma cutsA : cuts ci false = map (fun x => (sIndex1 x, mkSP (ipos x) false)) intrs.
Proof. unfold cuts, cutsFirst. cbn [ciIntrs ciStarts ciEnds map ci]. now rewrite !app_nil_r. Qed.
Lemma cutsB : cuts ci true = map (fun x => (sIndex2 x, mkSP (ipos x) false)) intrs.
Proof. unfold cuts, cutsSecond. cbn [ciIntrs ciStarts ciEnds ciOpposing combine flat_map map ci]. now rewrite !app_nil_r. Qed.

Lemma intr_common x : In x intrs -> common A B (ipos x).
Proof. intros Hx. destruct (Hs x Hx) as (K1 & K2 & O1 & O2). split; [exists (vert A (sIndex1 x) 0), (vert A (sIndex1 x) 1)|exists (vert B (sIndex2 x) 0), (vert B (sIndex2 x) 1)]; (split; [|auto]); apply seg_at; auto; first [apply CA|apply CB]. Qed.

Lemma sndA k c : In (k, c) (cuts ci false) -> (k < length (vertexes A))%nat /\ spStart c = false /\ onSeg (vert A k 0) (vert A k 1) (spPos c) /\ common A B (spPos c).
Proof. intros Hin. rewrite cutsA in Hin. apply in_map_iff in Hin. destruct Hin as (x & Ex & Hx). injection Ex as <- <-. cbn [spStart spPos]. destruct (Hs x Hx) as (K1 & K2 & O1 & O2). pose proof (intr_common x Hx). auto. Qed.
Lemma sndB k c : In (k, c) (cuts ci true) -> (k < length (vertexes B))%nat /\ spStart c = false /\ onSeg (vert B k 0) (vert B k 1) (spPos c) /\ common A B (spPos c).
Proof. intros Hin. rewrite cutsB in Hin. apply in_map_iff in Hin. destruct Hin as (x & Ex & Hx). injection Ex as <- <-. cbn [spStart spPos]. destruct (Hs x Hx) as (K1 & K2 & O1 & O2). pose proof (intr_common x Hx). auto. Qed.
Lemma cmpA k q : (k < length (vertexes A))%nat -> onSeg (vert A k 0) (vert A k 1) q -> onPath B q -> In (k, mkSP q false) (cuts ci false).
Proof. intros Hk Ho (b1 & b2 & Hb & Ob). apply at_seg in Hb; [|apply CB]. destruct Hb as (j & Hj & -> & ->). rewrite cutsA. apply in_map_iff. exists (mkIntr k j q). split; [reflexivity|]. now apply Hc. Qed.
Lemma cmpB k q : (k < length (vertexes B))%nat -> onSeg (vert B k 0) (vert B k 1) q -> onPath A q -> In (k, mkSP q false) (cuts ci true).
Proof. intros Hk Ho (b1 & b2 & Hb & Ob). apply at_seg in Hb; [|apply CA]. destruct Hb as (j & Hj & -> & ->). rewrite cutsB. apply in_map_iff. exists (mkIntr j k q). split; [reflexivity|]. now apply Hc. Qed.
Lemma some_intr : exists x, In x intrs.
Proof. revert Hne. clear. generalize intrs as l. intros [|x l] H; [congruence|]. exists x. now left. Qed.
Lemma neA : exists k c, In (k, c) (cuts ci false).
Proof. destruct some_intr as (x & Hx). exists (sIndex1 x), (mkSP (ipos x) false). rewrite cutsA. apply in_map_iff. exists x. auto. Qed.
Lemma neB : exists k c, In (k, c) (cuts ci true).
Proof. destruct some_intr as (x & Hx). exists (sIndex2 x), (mkSP (ipos x) false). rewrite cutsB. apply in_map_iff. exists x. auto. Qed.

(** the slices that are stitched *)
Lemma collect_exact : exists sA sB, Permutation sA (keptS A B (cuts ci false) fA) /\ Permutation sB (keptS B A (cuts ci true) fB) /\
  let slices := map (mkPline false) sA ++ (if inv then map invertDirection (map (mkPline false) sB) else map (mkPline false) sB) in
  collectSlices A B ci (fun p => gA (inside B p)) (fun p => gB (inside A p)) opp = Ok (mkColl slices (length sA) (length slices) (length slices)).
Proof.
  assert (O1 : okCuts ci false (length (vertexes A))) by (split; [reflexivity|split; [reflexivity|]]; intros k p H; now apply (sndA k p)).
  assert (O2 : okCuts ci true (length (vertexes B))) by (split; [reflexivity|split; [reflexivity|]]; intros k p H; now apply (sndB k p)).
  destruct (C33_exact A ci false (fun p => gA (inside B p)) [] O1 (side_sep A (common A B) _ CA (gp_first A B GP) sndA)) as (sA & EA & PA).
  destruct (C33_exact B ci true (fun p => gB (inside A p)) [] O2 (side_sep B (common A B) _ CB (gp_second A B GP) sndB)) as (sB & EB & PB).
  exists sA, sB. split; [exact PA|]. split; [exact PB|]. cbv zeta. unfold collectSlices. rewrite EA, EB. cbn [bind app ciSlices ciOpposing invertOpposing ci].
  fold inv. f_equal. set (pB := if inv then map invertDirection (map (mkPline false) sB) else map (mkPline false) sB). replace (if inv then map invertDirection [] else []) with (@nil polyline) by (destruct inv; reflexivity).
  cbn [app]. rewrite !app_nil_r. cbn [length]. rewrite !app_length, !map_length. f_equal; lia.
Qed.

Context (Phi : bool -> bool -> Z).
Hypothesis HP0 : Phi false false = 0%Z.
Hypothesis HPA : forall b, Phi true b = (Phi false b + b2z (gA b))%Z.
Hypothesis HPB : forall b, Phi b true = (Phi b false + (if opp then -1 else 1) * b2z (gB b))%Z.

Lemma orient_cw pl : orient pl = if (getArea pl <? t0)%t then (-1)%Z else 1%Z.
Proof.
  unfold orient. destruct (Rlt_dec (getArea pl) 0) as [L|L]; destruct (getArea pl <? t0)%t eqn:E; auto.
  - apply Rltb_false in E. rcbn. cbn in E. lra.
  - apply Rltb_spec in E. cbn in E. lra.
Qed.

Lemma orient_pm pl : orient pl = 1%Z \/ orient pl = (-1)%Z.
Proof. unfold orient. destruct (Rlt_dec _ _); auto. Qed.

Lemma kappa : (sgn inv * orient A * orient B = if opp then -1 else 1)%Z.
Proof. rewrite !orient_cw. fold cwA cwB. unfold inv, plineOpposingDirections. cbn [ciPline1IsCW ciPline2IsCW ci]. destruct opp, cwA, cwB; reflexivity. Qed.

Lemma in_flat_trace e (ls : list (list vertex)) : In e (flat_map traceOf ls) -> exists l, In l ls /\ In e (traceOf l).
Proof. intros H. apply in_flat_map in H. destruct H as (l & H1 & H2). eauto. Qed.

Lemma op_balance : (forall x, netT (KA ++ rv inv KB) x = 0) /\
  forall q, ~ onPath A q -> ~ onPath B q -> turnT q (KA ++ rv inv KB) = 2 * PI * IZR (orient A * Phi (inside A q) (inside B q)).
Proof.
  pose proof (gp_first A B GP) as G1. pose proof (gp_second A B GP) as G2. pose proof (gp_apart A B GP) as G3.
  assert (G3' : forall q q', common A B q -> common A B q' -> q <> q' -> wellApart q q') by exact G3.
  pose proof (fun p => side_turn A B (common A B) _ CA SA G1 G3 sndA neA fA p) as TA. 
  pose proof (fun p => side_turn B A (common A B) _ CB SB G2 G3 sndB neB fB p) as TB.
  pose proof (fun x => side_net A B (common A B) _ CA SA G1 G3 sndA neA fA x) as XA.
  pose proof (fun x => side_net B A (common A B) _ CB SB G2 G3 sndB neB fB x) as XB.
  assert (OKA : okT (KA ++ NA)). { intros e He. apply in_app_or in He. destruct He as [He|He]; apply in_flat_trace in He; destruct He as (l & Hl & He); apply (run_shape A B (common A B) _ CA SA G1 G3 sndA cmpA fA l ltac:(auto)); auto. }
  assert (OKB : okT (KB ++ NB)). { intros e He. apply in_app_or in He. destruct He as [He|He]; apply in_flat_trace in He; destruct He as (l & Hl & He); apply (run_shape B A (common A B) _ CB SB G2 G3 sndB cmpB fB l ltac:(auto)); auto. }
  assert (QA : forall e q, In e KA -> on3 e q -> onPath A q /\ (onPath B q \/ gA (inside B q) = true)).
  { intros e q He O. apply in_flat_trace in He. destruct He as (l & Hl & He). exact (kept_points A B (common A B) _ CA SA SB G1 G3 sndA cmpA fA l q e Hl He O). }
  assert (QA' : forall e q, In e NA -> on3 e q -> onPath A q /\ (onPath B q \/ gA (inside B q) = false)).
  { intros e q He O. apply in_flat_trace in He. destruct He as (l & Hl & He). exact (dropped_points A B (common A B) _ CA SA SB G1 G3 sndA cmpA fA l q e Hl He O). }
  assert (QB : forall e q, In e KB -> on3 e q -> onPath B q /\ (onPath A q \/ gB (inside A q) = true)).
  { intros e q He O. apply in_flat_trace in He. destruct He as (l & Hl & He). exact (kept_points B A (common A B) _ CB SB SA G2 G3 sndB cmpB fB l q e Hl He O). }
  assert (QB' : forall e q, In e NB -> on3 e q -> onPath B q /\ (onPath A q \/ gB (inside A q) = false)).
  { intros e q He O. apply in_flat_trace in He. destruct He as (l & Hl & He). exact (dropped_points B A (common A B) _ CB SB SA G2 G3 sndB cmpB fB l q e Hl He O). }
  assert (HX : forall q, onPath A q -> onPath B q -> In q (map ipos intrs)).
  { intros q (a1 & a2 & Ha & Oa) (b1 & b2 & Hb & Ob). apply at_seg in Ha; [|apply CA]. apply at_seg in Hb; [|apply CB]. destruct Ha as (i & Hi & -> & ->). destruct Hb as (j & Hj & -> & ->).
    apply in_map_iff. exists (mkIntr i j q). split; [reflexivity|]. now apply Hc. }
  assert (HPB' : forall b, Phi b true = (Phi b false + sgn inv * orient A * orient B * b2z (gB b))%Z) by (intros b; rewrite kappa; apply HPB).
  assert (F2A : forall e q, In e (KA ++ NA) -> on3 e q -> onPath A q) by (intros e q He O; apply in_app_or in He; destruct He as [He|He]; [apply (QA e q)|apply (QA' e q)]; auto).
  assert (F2B : forall e q, In e (KB ++ NB) -> on3 e q -> onPath B q) by (intros e q He O; apply in_app_or in He; destruct He as [He|He]; [apply (QB e q)|apply (QB' e q)]; auto).
  assert (F3A : forall e q, In e KA -> on3 e q -> ~ onPath B q -> gA (inside B q) = true) by (intros e q He O N; destruct (QA e q He O) as [_ [?|?]]; [contradiction|auto]).
  assert (F3A' : forall e q, In e NA -> on3 e q -> ~ onPath B q -> gA (inside B q) = false) by (intros e q He O N; destruct (QA' e q He O) as [_ [?|?]]; [contradiction|auto]).
  assert (F3B : forall e q, In e KB -> on3 e q -> ~ onPath A q -> gB (inside A q) = true) by (intros e q He O N; destruct (QB e q He O) as [_ [?|?]]; [contradiction|auto]).
  assert (F3B' : forall e q, In e NB -> on3 e q -> ~ onPath A q -> gB (inside A q) = false) by (intros e q He O N; destruct (QB' e q He O) as [_ [?|?]]; [contradiction|auto]).
  split.
  - exact (balance A B KA NA KB NB inv (orient A) (orient B) gA gB Phi (map ipos intrs) (orient_pm A) (orient_pm B) SA SB LA LB HPA HPB' TA TB OKA OKB F2A F2B F3A F3A' F3B F3B' XA XB HX).
  - exact (balance_turn A B KA NA KB NB inv (orient A) (orient B) gA gB Phi (map ipos intrs) (orient_pm A) (orient_pm B) SA SB LA LB HP0 HPA HPB' TA TB OKA OKB F2A F2B F3A F3A' F3B F3B' XA XB HX).
Qed.

Lemma invert_open l : isClosed (invertDirection (mkPline false l)) = false.
Proof. destruct (C22_closed_flag_and_size (mkPline false l)) as (E & _). rewrite E. reflexivity. Qed.

Lemma flat_perm {X Y} (f g : X -> list Y) l : (forall x, In x l -> Permutation (f x) (g x)) -> Permutation (flat_map f l) (flat_map g l).
Proof. induction l as [|x l IH]; intros H; [constructor|]. cbn [flat_map]. apply Permutation_app; [apply H; now left|apply IH; intros; apply H; now right]. Qed.

Lemma map_flat_map {X Y Z} (h : Y -> Z) (f : X -> list Y) l : map h (flat_map f l) = flat_map (fun x => map h (f x)) l.
Proof. induction l as [|x l IH]; [reflexivity|]. cbn [flat_map]. now rewrite map_app, IH. Qed.

Lemma flat_map_map {X Y Z} (h : X -> Y) (f : Y -> list Z) l : flat_map f (map h l) = flat_map (fun x => f (h x)) l.
Proof. induction l as [|x l IH]; [reflexivity|]. cbn [map flat_map]. now rewrite IH. Qed.

(** what stitching makes of the slices *)
Lemma op_result cs sel rem : collectSlices A B ci (fun p => gA (inside B p)) (fun p => gB (inside A p)) opp = Ok cs -> (Z.of_nat (length (slicesRemaining cs)) <= 2 ^ 24)%Z -> okSelector sel ->
  (forall cur avail, (cur < length (slicesRemaining cs))%nat -> avail <> [] -> (forall c, In c avail -> (c < length (slicesRemaining cs))%nat) -> exists c, sel cur avail = Ok (Some c) /\ In c avail) ->
  stitchOrderedSlices (slicesRemaining cs) sel sliceJoinThreshold = Ok rem ->
  List.Forall closedPline rem /\ Permutation (flat_map trace rem) (KA ++ rv inv KB) /\
  forall q, ~ onPath A q -> ~ onPath B q -> (forall p, In p rem -> ~ onPath p q) /\ windingSum rem q = (orient A * Phi (inside A q) (inside B q))%Z.
Proof.
  intros Ecs Hlen Hok Hch Est. destruct collect_exact as (sA & sB & PA & PB & E). cbv zeta in E. set (slices := map (mkPline false) sA ++ _) in *. rewrite Ecs in E. injection E as ->. cbn [slicesRemaining] in *.
  destruct op_balance as [Bal Turn].
  pose proof (gp_first A B GP) as G1. pose proof (gp_second A B GP) as G2. pose proof (gp_apart A B GP) as G3.
  (* each slice *)
  assert (SH : forall s, In s slices -> (2 <= length (vertexes s))%nat /\ (length (vertexes s) = 2%nat -> pos (hd vdflt (vertexes s)) <> pos (last (vertexes s) vdflt)) /\ isClosed s = false /\
     common A B (pos (hd vdflt (vertexes s))) /\ common A B (pos (last (vertexes s) vdflt))).
  { intros s Hin. unfold slices in Hin. apply in_app_or in Hin. assert (GA : forall s, In s (map (mkPline false) sA) -> (2 <= length (vertexes s))%nat /\ (length (vertexes s) = 2%nat -> pos (hd vdflt (vertexes s)) <> pos (last (vertexes s) vdflt)) /\ isClosed s = false /\
     common A B (pos (hd vdflt (vertexes s))) /\ common A B (pos (last (vertexes s) vdflt))).
    { clear s Hin. intros s Hin. apply in_map_iff in Hin. destruct Hin as (l & <- & Hl). apply (Permutation_in _ PA) in Hl. cbn [vertexes isClosed].
      destruct (run_shape A B (common A B) _ CA SA G1 G3 sndA cmpA fA l (or_introl Hl)) as (R1 & R2 & _). destruct (kept_ends A B (common A B) _ CA SA SB G1 G3 sndA cmpA fA l Hl) as (X1 & X2). auto. }
    assert (GB : forall s, In s (map (mkPline false) sB) -> (2 <= length (vertexes s))%nat /\ (length (vertexes s) = 2%nat -> pos (hd vdflt (vertexes s)) <> pos (last (vertexes s) vdflt)) /\ isClosed s = false /\
     common A B (pos (hd vdflt (vertexes s))) /\ common A B (pos (last (vertexes s) vdflt))).
    { clear s Hin. intros s Hin. apply in_map_iff in Hin. destruct Hin as (l & <- & Hl). apply (Permutation_in _ PB) in Hl. cbn [vertexes isClosed].
      destruct (run_shape B A (common A B) _ CB SB G2 G3 sndB cmpB fB l (or_introl Hl)) as (R1 & R2 & _). destruct (kept_ends B A (common A B) _ CB SB SA G2 G3 sndB cmpB fB l Hl) as (X1 & X2). auto. }
    destruct Hin as [Hin|Hin]; [auto|]. destruct inv; [|auto]. apply in_map_iff in Hin. destruct Hin as (s' & <- & Hin). destruct (GB s' Hin) as (R1 & R2 & R3 & X1 & X2).
    destruct (C22_closed_flag_and_size s') as (E1 & E2 & E3). replace (length (vertexes s') <? 2)%nat with false in E3 by (symmetry; apply Nat.ltb_ge; lia).
    assert (H1 : pos (hd vdflt (vertexes (invertDirection s'))) = pos (last (vertexes s') vdflt)) by (rewrite pos_hd, E3, hd_rev_vec, <- pos_last; reflexivity).
    assert (H2 : pos (last (vertexes (invertDirection s')) vdflt) = pos (hd vdflt (vertexes s'))) by (rewrite pos_last, E3, last_rev_vec, <- pos_hd; reflexivity).
    rewrite H1, H2. split; [lia|]. split; [intros L Q; apply R2; [lia|congruence]|]. split; [congruence|]. auto. }
  (* their segments *)
  assert (PT : Permutation (flat_map (fun s => traceOf (vertexes s)) slices) (KA ++ rv inv KB)).
  { unfold slices. rewrite flat_map_app. apply Permutation_app.
    - rewrite flat_map_map. cbn [vertexes]. apply (Permutation_flat_map traceOf PA).
    - assert (PK : Permutation (flat_map (fun s => traceOf (vertexes s)) (map (mkPline false) sB)) KB) by (rewrite flat_map_map; cbn [vertexes]; apply (Permutation_flat_map traceOf PB)).
      destruct inv; cbn [rv]; [|exact PK]. rewrite <- (Permutation_map rev3 PK), map_flat_map, flat_map_map. apply flat_perm. intros s Hin. apply in_map_iff in Hin. destruct Hin as (l & <- & _). cbn [vertexes].
      rewrite (traceOf_trace _ (invert_open l)). eapply perm_trans; [apply trace_invert_perm|]. rewrite trace_open. apply Permutation_refl. }
  set (N := length slices) in *.
  assert (AT : forall i, (i < N)%nat -> In (sliceAt slices i) slices) by (intros i Hi; unfold sliceAt; now apply nth_In).
  assert (HJ : forall i j, (i < N)%nat -> (j < N)%nat -> joins slices sliceJoinThreshold i j <-> endOf slices i = startOf slices j).
  { intros i j Hi Hj. destruct (SH _ (AT i Hi)) as (_ & _ & _ & _ & C1). destruct (SH _ (AT j Hj)) as (_ & _ & _ & C2 & _). unfold joins. rewrite sjt_R. fold (endOf slices i) in C1. fold (startOf slices j) in C2. split.
    - intros [D1 D2]. destruct (Classical_Prop.classic (endOf slices i = startOf slices j)) as [|N']; [auto|]. destruct (gp_apart A B GP _ _ C1 C2 N') as [W|W]; lra.
    - intros ->. rewrite !Rminus_eq_0, Rabs_R0. lra. }
  assert (Hbal : forall x, net slices (seq 0 N) x = 0).
  { intros x. unfold N. rewrite net_of by (intros s Hin Q; destruct (SH s Hin) as (R1 & _); rewrite Q in R1; cbn in R1; lia). rewrite (netT_perm _ _ x PT). apply Bal. }
  destruct (stitch_complete slices sel sliceJoinThreshold HJ Hbal Hch sjt_pos Hlen Hok) as (rem' & Est' & Cl & P).
  { intros i Hi. destruct (SH _ (AT i Hi)) as (R1 & R2 & _). auto. }
  rewrite Est in Est'. injection Est' as <-. assert (P' : Permutation (flat_map trace rem) (KA ++ rv inv KB)) by (eapply perm_trans; [exact P|exact PT]).
  split; [exact Cl|]. split; [exact P'|]. intros q HA HB.
  assert (OK : okT (KA ++ rv inv KB)).
  { apply okT_app; [|apply okT_rv]; intros e He; apply in_flat_trace in He; destruct He as (l & Hl & He);
     [apply (run_shape A B (common A B) _ CA SA G1 G3 sndA cmpA fA l ltac:(auto)); auto|apply (run_shape B A (common A B) _ CB SB G2 G3 sndB cmpB fB l ltac:(auto)); auto]. }
  assert (OF : offT (KA ++ rv inv KB) q).
  { apply offT_app; [|apply offT_rv]; intros e He O; apply in_flat_trace in He; destruct He as (l & Hl & He);
     [apply HA; apply (kept_points A B (common A B) _ CA SA SB G1 G3 sndA cmpA fA l q e Hl He O)|apply HB; apply (kept_points B A (common A B) _ CB SB SA G2 G3 sndB cmpB fB l q e Hl He O)]. }
  assert (Off : forall p, In p rem -> ~ onPath p q).
  { intros p Hp O. apply onPath_trace in O. destruct O as (e & He & O). apply (OF e); [|exact O]. apply (Permutation_in _ P'). apply in_flat_map. exists p. auto. }
  split; [exact Off|]. apply eq_IZR. apply Rmult_eq_reg_l with (2 * PI); [|pose proof PI_RGT_0; lra]. rewrite <- (Turn q HA HB), <- (windingSum_turn rem q Cl); [|intros e He; apply OK, (Permutation_in _ P'), He|exact Off].
  unfold turnT. apply sumR_perm, Permutation_map, P'.
Qed.
End Ops.

(** ** The property *)
(** how often the boundary of the result is to wind around a point that is inside A or not (a) and inside B or not (b) *)
Definition regionOf (mode : combineMode) (a b : bool) : Z :=
  match mode with
  | Union => if a || b then 1 else 0
  | Intersect => if a && b then 1 else 0
  | Exclude => if a && negb b then 1 else 0
  | XOR => (if a && negb b then 1 else 0) - (if negb a && b then 1 else 0)
  end%Z.

Theorem C52_region {SL : StdLib} {SLaws : StdLaws SL} A B mode : closedPline A -> closedPline B -> indexable A ->
  (10 * Z.of_nat (length (vertexes A)) * Z.of_nat (length (vertexes B)) <= 2 ^ 24)%Z ->
  smallBulges A -> smallBulges B -> generalPosition A B -> (exists q, common A B q) -> simpleLoop A -> simpleLoop B ->
  exists r, combinePolylines A B mode = Ok r /\
    forall q, ~ onPath A q -> ~ onPath B q ->
      (forall p, In p (remaining r ++ subtracted r) -> ~ onPath p q) /\
      windingSum (remaining r ++ subtracted r) q = (orient A * regionOf mode (inside A q) (inside B q))%Z.
Proof.
  intros CA CB IA Hsz SA SB GP (x0 & X1 & X2) LA LB. destruct (C36_returns A B mode IA CA CB Hsz) as (r & Er & _). exists r. split; [exact Er|].
  destruct (gp_intersects A B CA CB IA SA SB GP) as (ix & intrs & E1 & E2 & Hs & Hc).
  assert (Hne : intrs <> []).
  { destruct X1 as (a1 & a2 & Ha & Oa). destruct X2 as (b1 & b2 & Hb & Ob). apply at_seg in Ha; [|apply CA]. apply at_seg in Hb; [|apply CB].
    destruct Ha as (i & Hi & -> & ->). destruct Hb as (j & Hj & -> & ->). intros N. specialize (Hc i j x0 Hi Hj Oa Ob). rewrite N in Hc. destruct Hc. }
  set (ci := mkInfo [] intrs [] [] [] (getArea A <? t0)%t (getArea B <? t0)%t).
  assert (OI : okInfo A B ci).
  { destruct (process_ok A B IA (proj2 CB)) as (ix' & ci' & E1' & E2' & H). rewrite E1 in E1'. injection E1' as <-. unfold processForCombine in E2'. rewrite E2 in E2'. cbn [bind] in E2'. injection E2' as <-. exact H. }
  assert (LEN : forall pA pB opp cs, collectSlices A B ci pA pB opp = Ok cs -> (Z.of_nat (length (slicesRemaining cs)) <= 2 ^ 24)%Z).
  { intros pA pB opp cs Ecs. destruct (collect_ok A B ci pA pB opp OI) as (cs' & Ecs' & _ & Lcs). rewrite Ecs in Ecs'. injection Ecs' as <-. lia. }
  assert (AC : forall gA gB opp cs, collectSlices A B ci (fun p => gA (inside B p)) (fun p => gB (inside A p)) opp = Ok cs ->
     startOfPlineACoincidentSlicesIdx cs = length (slicesRemaining cs) /\ startOfPlineBCoincidentSlicesIdx cs = length (slicesRemaining cs)).
  { intros gA gB opp cs Ecs. destruct (collect_exact A B intrs CA CB GP Hs gA gB opp) as (sA & sB & _ & _ & E). cbv zeta in E. fold ci in E. rewrite Ecs in E. injection E as ->. split; reflexivity. }
  destruct C34_selectors as (_ & SelU & SelX).
  unfold combinePolylines in Er. rewrite E1 in Er. cbn [bind] in Er. unfold processForCombine in Er. rewrite E2 in Er. cbn [bind] in Er. fold ci in Er.
  apply bind_inv in Er. destruct Er as (ia & _ & Er). apply bind_inv in Er. destruct Er as (ib & _ & Er).
  assert (EX : completelyCoincident ci = false) by reflexivity. rewrite EX in Er.
  assert (EY : anyIntersects ci = true). { unfold anyIntersects. cbn [ci ciSlices ciIntrs length Nat.eqb negb orb]. destruct intrs; [congruence|reflexivity]. }
  rewrite EY in Er. cbn [negb] in Er.
  destruct mode.
  - apply bind_inv in Er. destruct Er as (cs & Ecs & Er). apply bind_inv in Er. destruct Er as (rem & Erem & Er). injection Er as <-. destruct (AC negb negb false cs Ecs) as [AC1 AC2]. rewrite AC1 in Erem.
    destruct (op_result A B intrs CA CB SA SB GP LA LB Hs Hc Hne negb negb false (regionOf Union) eq_refl (fun b => match b with true => eq_refl | false => eq_refl end) (fun b => match b with true => eq_refl | false => eq_refl end)
      cs _ rem Ecs (LEN _ _ _ _ Ecs) (SelU _) (union_chooses _) Erem) as (_ & _ & Q).
    intros q HA HB. destruct (Q q HA HB) as [Q1 Q2]. unfold splitByOrientation. cbn [remaining subtracted]. split.
    + intros p Hp. apply Q1. apply in_app_or in Hp. rewrite !filter_In in Hp. tauto.
    + rewrite <- Q2, windingSum_app. apply windingSum_filter.
  - apply bind_inv in Er. destruct Er as (cs & Ecs & Er). apply bind_inv in Er. destruct Er as (rem & Erem & Er). injection Er as <-. destruct (AC negb (fun b => b) true cs Ecs) as [AC1 AC2]. rewrite AC1, AC2 in Erem.
    destruct (op_result A B intrs CA CB SA SB GP LA LB Hs Hc Hne negb (fun b => b) true (regionOf Exclude) eq_refl (fun b => match b with true => eq_refl | false => eq_refl end) (fun b => match b with true => eq_refl | false => eq_refl end)
      cs _ rem Ecs (LEN _ _ _ _ Ecs) (SelX _ _ _) (xor_chooses _ _) Erem) as (_ & _ & Q).
    intros q HA HB. cbn [remaining subtracted]. rewrite app_nil_r. apply Q; auto.
  - apply bind_inv in Er. destruct Er as (cs & Ecs & Er). apply bind_inv in Er. destruct Er as (rem & Erem & Er). injection Er as <-. destruct (AC (fun b => b) (fun b => b) false cs Ecs) as [AC1 AC2]. rewrite AC1 in Erem.
    destruct (op_result A B intrs CA CB SA SB GP LA LB Hs Hc Hne (fun b => b) (fun b => b) false (regionOf Intersect) eq_refl (fun b => match b with true => eq_refl | false => eq_refl end) (fun b => match b with true => eq_refl | false => eq_refl end)
      cs _ rem Ecs (LEN _ _ _ _ Ecs) (SelU _) (union_chooses _) Erem) as (_ & _ & Q).
    intros q HA HB. cbn [remaining subtracted]. rewrite app_nil_r. apply Q; auto.
  - apply bind_inv in Er. destruct Er as (cs & Ecs & Er). apply bind_inv in Er. destruct Er as (rem & Erem & Er). apply bind_inv in Er. destruct Er as (cs2 & Ecs2 & Er).
    apply bind_inv in Er. destruct Er as (rem2 & Erem2 & Er). injection Er as <-. destruct (AC negb (fun b => b) true cs Ecs) as [AC1 AC2]. rewrite AC1, AC2 in Erem. destruct (AC (fun b => b) negb true cs2 Ecs2) as [AC3 AC4]. rewrite AC3, AC4 in Erem2.
    destruct (op_result A B intrs CA CB SA SB GP LA LB Hs Hc Hne negb (fun b => b) true (regionOf Exclude) eq_refl (fun b => match b with true => eq_refl | false => eq_refl end) (fun b => match b with true => eq_refl | false => eq_refl end)
      cs _ rem Ecs (LEN _ _ _ _ Ecs) (SelX _ _ _) (xor_chooses _ _) Erem) as (_ & _ & Q).
    destruct (op_result A B intrs CA CB SA SB GP LA LB Hs Hc Hne (fun b => b) negb true (fun a b => (- if negb a && b then 1 else 0)%Z) eq_refl (fun b => match b with true => eq_refl | false => eq_refl end) (fun b => match b with true => eq_refl | false => eq_refl end)
      cs2 _ rem2 Ecs2 (LEN _ _ _ _ Ecs2) (SelX _ _ _) (xor_chooses _ _) Erem2) as (_ & _ & Q').
    intros q HA HB. cbn [remaining subtracted]. rewrite app_nil_r. destruct (Q q HA HB) as [Q1 Q2]. destruct (Q' q HA HB) as [Q3 Q4]. split.
    + intros p Hp. apply in_app_or in Hp. destruct Hp; auto.
    + rewrite windingSum_app, Q2, Q4. cbn [regionOf]. destruct (inside A q), (inside B q); cbn; lia.
Qed.

(** a point is enclosed by the result if and only if it is in the union, intersection, difference or symmetric difference of the input regions *)
Corollary C52_enclosed {SL : StdLib} {SLaws : StdLaws SL} A B mode : closedPline A -> closedPline B -> indexable A ->
  (10 * Z.of_nat (length (vertexes A)) * Z.of_nat (length (vertexes B)) <= 2 ^ 24)%Z ->
  smallBulges A -> smallBulges B -> generalPosition A B -> (exists q, common A B q) -> simpleLoop A -> simpleLoop B ->
  exists r, combinePolylines A B mode = Ok r /\
    forall q, ~ onPath A q -> ~ onPath B q -> windingSum (remaining r ++ subtracted r) q <> 0%Z <->
      match mode with
      | Union => insideOf A q \/ insideOf B q
      | Intersect => insideOf A q /\ insideOf B q
      | Exclude => insideOf A q /\ ~ insideOf B q
      | XOR => (insideOf A q /\ ~ insideOf B q) \/ (insideOf B q /\ ~ insideOf A q)
      end.
Proof.
  intros CA CB IA Hsz SA SB GP HX LA LB. destruct (C52_region A B mode CA CB IA Hsz SA SB GP HX LA LB) as (r & Er & H). exists r. split; [exact Er|].
  intros q HA HB. destruct (H q HA HB) as [_ ->].
  assert (I : forall pl, ~ onPath pl q -> insideOf pl q <-> inside pl q = true).
  { intros pl N. unfold insideOf, inside. rewrite negb_true_iff, Z.eqb_neq. tauto. }
  destruct mode; rewrite (I A HA), (I B HB); destruct (orient_pm A) as [-> | ->]; destruct (inside A q), (inside B q); cbn; intuition (try discriminate; try lia).
Qed.

(** *** The hypotheses hold for two overlapping squares *)
Lemma square_simple x y w : 0 < w -> simpleLoop (square x y w).
Proof.
  intros Hw q _. assert (Ho : orient (square x y w) = 1%Z).
  { unfold orient. rewrite getArea_sum by reflexivity. destruct (Rlt_dec _ _) as [L|]; [exfalso|reflexivity]. unfold trace, pathSegs, square in L. cbn [vertexes isClosed openSegs app last map] in L.
    rewrite !sumR_cons, sumR_nil in L. unfold seg3 in L. cbn [fst snd pos bulge mkVertex] in L. rewrite !areaOf_line in L by (rewrite Rabs_R0; lra). cbn [vx vy] in L. nra. }
  rewrite Ho. rewrite getWindingNumber_sum by reflexivity. unfold trace, pathSegs, square. cbn [vertexes isClosed openSegs app last map fold_right]. unfold seg3. cbn [fst snd pos bulge mkVertex].
  assert (Z : forall p, bulgeIsZero (mkVtx p 0) = true) by (intros p; unfold bulgeIsZero; cbn [bulge]; rcbn; apply Rltb_spec; rewrite Rabs_R0; lra).
  unfold segWinding. rewrite !Z. unfold lineWinding, py. cbn [pos vx vy]. unfold isLeft, leftExpr. rcbn.
  destruct q as [qx qy]. cbn [vx vy].
  repeat match goal with |- context [Rltb ?a ?b] => let E := fresh in destruct (Rltb a b) eqn:E; rbool | |- context [Rleb ?a ?b] => let E := fresh in destruct (Rleb a b) eqn:E; rbool end; cbn; try (left; reflexivity); try (right; reflexivity); exfalso; nra.
Qed.

Example C52_squares : let A := square 0 0 2 in let B := square 1 1 2 in
  closedPline A /\ closedPline B /\ indexable A /\ (10 * Z.of_nat (length (vertexes A)) * Z.of_nat (length (vertexes B)) <= 2 ^ 24)%Z /\ smallBulges A /\ smallBulges B /\
  generalPosition A B /\ (exists q, common A B q) /\ simpleLoop A /\ simpleLoop B.
Proof.
  intros A B. destruct C50_squares as (H1 & H2 & H3 & H4 & H5 & H6 & H7 & _). repeat (split; [first [assumption|cbn; lia|eexists; exact H7|apply square_simple; lra]|]). apply square_simple; lra.
Qed.
