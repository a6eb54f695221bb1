(** * Stitching balanced slices uses every slice *)
From Coq Require Import ZArith Reals Lra Lia List Bool Arith Permutation.
From Verif Require Import Base Num MathUtils PlineSegment SpatialIndex Polyline Intersects Combine RGeom Spec ArcGeom PropsPolyline PropsStitch PropsCombine PropsBoolOps PropsCover.
Import ListNotations.
Open Scope R_scope.

(** ** Specification *)
Definition veq_dec (x y : vec) : {x = y} + {x <> y}.
Proof.
  destruct x as [a b], y as [c e]. destruct (Req_EM_T a c) as [->|N]; [|right; intros E; injection E; auto]. destruct (Req_EM_T b e) as [->|N]; [now left|right; intros E; injection E; auto].
Defined.

(** 1 if the points are equal, else 0 *)
Definition ind (x y : vec) : R := if veq_dec x y then 1 else 0.

Section Euler.
Context (slices : list polyline) (sel : nat -> list nat -> res (option nat)) (d : R).
Let N := length slices.

(** how many of the listed slices start at x, less how many end there *)
Definition net (l : list nat) (x : vec) : R := sumR (map (fun i => ind x (startOf slices i) - ind x (endOf slices i)) l).

(** slices are joined exactly where they meet, and at every point as many slices start as end *)
Hypothesis HJ : forall i j, (i < N)%nat -> (j < N)%nat -> joins slices d i j <-> endOf slices i = startOf slices j.
Hypothesis Hbal : forall x, net (seq 0 N) x = 0.
(** the selector always chooses *)
Hypothesis Hsel : forall cur avail, (cur < N)%nat -> avail <> [] -> (forall c, In c avail -> (c < N)%nat) -> exists c, sel cur avail = Ok (Some c) /\ In c avail.

Lemma ind_same x : ind x x = 1.
Proof. unfold ind. destruct (veq_dec x x); [reflexivity|congruence]. Qed.
Lemma ind_ne x y : x <> y -> ind x y = 0.
Proof. intros H. unfold ind. destruct (veq_dec x y); [contradiction|reflexivity]. Qed.
Lemma ind_bounds x y : 0 <= ind x y <= 1.
Proof. unfold ind. destruct (veq_dec x y); lra. Qed.

Lemma net_app l l' x : net (l ++ l') x = net l x + net l' x.
Proof. unfold net. now rewrite map_app, sumR_app. Qed.

Lemma net_cons i l x : net (i :: l) x = ind x (startOf slices i) - ind x (endOf slices i) + net l x.
Proof. unfold net. cbn [map]. now rewrite sumR_cons. Qed.

Lemma net_pos l x : 0 < net l x -> exists i, In i l /\ startOf slices i = x.
Proof.
  induction l as [|i l IH]; [unfold net; cbn; lra|]. rewrite net_cons. intros H. destruct (veq_dec x (startOf slices i)) as [E|Ne]; [exists i; split; [now left|auto]|].
  rewrite (ind_ne _ _ Ne) in H. pose proof (ind_bounds x (endOf slices i)). destruct IH as (j & Hj & E); [lra|]. exists j. split; [now right|auto].
Qed.

Lemma complement used : NoDup used -> (forall i, In i used -> (i < N)%nat) -> exists rest, Permutation (used ++ rest) (seq 0 N).
Proof.
  intros Hnd Hu. exists (filter (fun i => negb (existsb (Nat.eqb i) used)) (seq 0 N)).
  assert (He : forall i, existsb (Nat.eqb i) used = true <-> In i used). { intros i. rewrite existsb_exists. split; [intros (j & Hj & E); apply Nat.eqb_eq in E; now subst|intros H; exists i; split; [auto|apply Nat.eqb_refl]]. }
  apply NoDup_Permutation; [|apply seq_NoDup|].
  - assert (G : forall (a b : list nat), NoDup a -> NoDup b -> (forall x, In x a -> ~ In x b) -> NoDup (a ++ b)).
    { clear. induction a as [|x a IH]; intros b Ha Hb H; [auto|]. inversion Ha. subst. cbn [app]. constructor.
      - rewrite in_app_iff. intros [Q|Q]; [auto|]. apply (H x); auto. now left.
      - apply IH; auto. intros y Hy. apply H. now right. }
    apply G; [auto|apply NoDup_filter, seq_NoDup|]. intros x Hx H. apply filter_In in H. destruct H as [_ H]. apply He in Hx. rewrite Hx in H. discriminate.
  - intros i. rewrite in_app_iff, filter_In, in_seq. split.
    + intros [H|[H _]]; [|lia]. specialize (Hu i H). lia.
    + intros H. destruct (existsb (Nat.eqb i) used) eqn:E; [left; now apply He|right; split; [lia|reflexivity]].
Qed.

Lemma walk_closes first used cur ch o used' : walk slices sel d first used cur ch o used' -> NoDup used -> (forall i, In i used -> (i < N)%nat) -> In cur used -> (first < N)%nat ->
  (forall x, net used x = ind x (startOf slices first) - ind x (endOf slices cur)) ->
  exists t, o = Some (ch ++ t) /\ used' = rev t ++ used /\ NoDup used' /\ (forall i, In i used' -> (i < N)%nat) /\ forall x, net used' x = 0.
Proof.
  intros W. induction W as [used cur ch Hav|used cur ch avail Hav Hne Hs|used cur ch avail Hav Hne Hs|used cur ch avail c o used' Hav Hne Hs Hcf W IH]; intros Hnd Hu Hcur Hf Hnet.
  - exfalso. pose proof (Hu cur Hcur) as Hc. destruct (veq_dec (endOf slices cur) (startOf slices first)) as [E|Ne].
    + apply (in_nil (a := first)). apply Hav. split; [auto|]. split; [now apply HJ|now left].
    + destruct (complement used Hnd Hu) as (rest & P). assert (E : net rest (endOf slices cur) = 1).
      { pose proof (Hbal (endOf slices cur)) as B. unfold net in B. rewrite <- (sumR_perm _ _ (Permutation_map _ P)) in B. fold (net (used ++ rest) (endOf slices cur)) in B. rewrite net_app, Hnet, ind_same, (ind_ne _ _ Ne) in B. lra. }
      destruct (net_pos rest (endOf slices cur) ltac:(lra)) as (i & Hi & Ei).
      assert (HiN : (i < N)%nat). { assert (In i (seq 0 N)) as H by (apply (Permutation_in _ P), in_or_app; now right). apply in_seq in H. lia. }
      apply (in_nil (a := i)). apply Hav. split; [auto|]. split; [apply HJ; auto|]. right. intros Hin.
      pose proof (Permutation_NoDup (Permutation_sym P) (seq_NoDup N 0)) as ND. apply in_split in Hi. destruct Hi as (r1 & r2 & ->).
      apply in_split in Hin. destruct Hin as (u1 & u2 & ->). replace ((u1 ++ i :: u2) ++ r1 ++ i :: r2) with (u1 ++ i :: (u2 ++ r1 ++ i :: r2)) in ND by now rewrite <- app_assoc.
      apply NoDup_remove_2 in ND. apply ND. rewrite !in_app_iff. right. right. right. now left.
  - exfalso. destruct (Hsel cur avail (Hu cur Hcur) Hne) as (c & E & _); [intros c Hc; now apply Hav in Hc|]. congruence.
  - exists []. rewrite app_nil_r. split; [reflexivity|]. split; [reflexivity|]. split; [auto|]. split; [auto|]. intros x. rewrite Hnet.
    destruct (Hsel cur avail (Hu cur Hcur) Hne) as (c & E & Hin); [intros c Hc; now apply Hav in Hc|]. assert (c = first) by congruence. subst c. apply Hav in Hin. destruct Hin as (_ & J & _). apply HJ in J; [|auto|auto]. rewrite J. lra.
  - destruct (Hsel cur avail (Hu cur Hcur) Hne) as (c' & E & Hin); [intros c' Hc; now apply Hav in Hc|]. assert (c' = c) by congruence. subst c'. apply Hav in Hin. destruct Hin as (HcN & J & [->|Hnu]); [congruence|]. apply HJ in J; [|auto|auto].
    destruct IH as (t & E1 & E2 & H1 & H2 & H3).
    + now constructor. + intros i [<-|Hi]; auto. + now left. + auto.
    + intros x. rewrite net_cons, Hnet, J. lra.
    + exists (c :: t). split; [rewrite E1; f_equal; now rewrite <- app_assoc|]. split; [rewrite E2; cbn [rev]; now rewrite <- app_assoc|]. auto.
Qed.

Lemma stitched_all l used chs : stitched slices sel d l used chs -> (forall i, In i l -> (i < N)%nat) -> NoDup used -> (forall i, In i used -> (i < N)%nat) -> (forall x, net used x = 0) ->
  forall i, In i l -> In i used \/ In i (concat chs).
Proof.
  induction 1 as [used|i l used chs Hin S IH|i l used used' chs Hin W S IH|i l used ch used' chs Hin W S IH]; intros Hl Hnd Hu Hnet j Hj.
  - destruct Hj.
  - destruct Hj as [<-|Hj]; [now left|]. apply IH; auto. intros k Hk. apply Hl. now right.
  - exfalso. destruct (walk_closes _ _ _ _ _ _ W) as (t & E & _); [now constructor|intros k [<-|Hk]; [apply Hl; now left|auto]|now left|apply Hl; now left| |discriminate].
    intros x. rewrite net_cons, Hnet. lra.
  - destruct (walk_closes _ _ _ _ _ _ W) as (t & E & Eu & H1 & H2 & H3); [now constructor|intros k [<-|Hk]; [apply Hl; now left|auto]|now left|apply Hl; now left| |].
    { intros x. rewrite net_cons, Hnet. lra. }
    injection E as ->. cbn [concat]. rewrite in_app_iff. destruct Hj as [<-|Hj]; [right; left; now left|].
    destruct (IH (fun k Hk => Hl k (or_intror Hk)) H1 H2 H3 j Hj) as [H|H]; [|tauto]. rewrite Eu, in_app_iff, <- in_rev in H. destruct H as [H|[H|H]]; [right; left; right; auto|right; left; now left|now left].
Qed.

(** ** The result, segment by segment *)
Hypothesis (Hd : 0 < d) (Hlen : (Z.of_nat N <= 2 ^ 24)%Z) (Hok : okSelector sel).
Hypothesis Hsl : forall i, (i < N)%nat -> (2 <= length (vertexes (sliceAt slices i)))%nat /\ (length (vertexes (sliceAt slices i)) = 2%nat -> startOf slices i <> endOf slices i).

Lemma ring_trace ch : ring slices d ch -> (forall i, In i ch -> (i < N)%nat) ->
  exists p, closedChain slices ch = [p] /\ trace p = flat_map (fun i => traceOf (vertexes (sliceAt slices i))) ch.
Proof.
  intros Hr Hin. unfold ring in Hr. destruct ch as [|i0 ch0]; [contradiction|]. set (ch := i0 :: ch0) in *. destruct Hr as [Hj Hlast].
  assert (M : forall i l, (forall j, In j (i :: l) -> In j ch) -> (forall l1 a b l2, i :: l = l1 ++ a :: b :: l2 -> joins slices d a b) ->
     joins slices d (last l i) i0 -> meet (map (fun i => vertexes (sliceAt slices i)) (i :: l)) (startOf slices i0)).
  { intros i l. revert i. induction l as [|j l IH]; intros i Hi Hjj Hl; cbn [map meet].
    - split; [apply Hsl, Hin, Hi; now left|]. split; [|exact I]. apply HJ; [apply Hin, Hi; now left|apply Hin; now left|exact Hl].
    - split; [apply Hsl, Hin, Hi; now left|]. split; [apply (HJ i j); [apply Hin, Hi; now left|apply Hin, Hi; right; now left|apply (Hjj [] i j l); reflexivity]|]. apply IH.
      + intros k Hk. apply Hi. now right.
      + intros l1 a b l2 El. apply (Hjj (i :: l1) a b l2). cbn. now rewrite El.
      + destruct l as [|n l]; [exact Hl|]. rewrite (last_default (n :: l) j i) by discriminate. exact Hl. }
  specialize (M i0 ch0 (fun j H => H) Hj Hlast). fold ch in M.
  assert (L2 : (2 <= length (chainVertexes slices ch))%nat).
  { assert (E0 : forall i, (i < N)%nat -> (1 <= length (removelast (vertexes (sliceAt slices i))))%nat) by (intros i Hi; destruct (Hsl i Hi) as [L _]; clear - L; destruct (vertexes (sliceAt slices i)) as [|x [|y l]]; [cbn in L; lia|cbn in L; lia|change (removelast (x :: y :: l)) with (x :: removelast (y :: l)); cbn [length]; lia]).
    unfold chainVertexes, ch. cbn [flat_map]. rewrite app_length. pose proof (E0 i0 (Hin i0 (or_introl eq_refl))) as L0. destruct ch0 as [|i1 ch1].
    - cbn [flat_map length]. destruct (Hsl i0 (Hin i0 (or_introl eq_refl))) as [L Ne]. destruct (Nat.eq_dec (length (vertexes (sliceAt slices i0))) 2) as [E|E]; [|clear - E L; destruct (vertexes (sliceAt slices i0)) as [|x [|y [|z l]]]; [cbn in L; lia|cbn in L; lia|cbn in E; lia|change (removelast (x :: y :: z :: l)) with (x :: y :: removelast (z :: l)); cbn [length]; lia]].
      exfalso. apply (Ne E). symmetry. apply HJ; [apply Hin; now left|apply Hin; now left|]. exact Hlast.
    - cbn [flat_map]. rewrite app_length. pose proof (E0 i1 (Hin i1 (or_intror (or_introl eq_refl)))). lia. }
  exists (mkPline true (chainVertexes slices ch)). unfold closedChain. destruct (Nat.leb_spec 2 (length (chainVertexes slices ch))) as [_|]; [|lia]. split; [reflexivity|].
  assert (EV : chainVertexes slices ch = flat_map (@removelast vertex) (map (fun i => vertexes (sliceAt slices i)) ch)) by (unfold chainVertexes; now rewrite flat_map_concat_map, flat_map_concat_map, map_map).
  assert (EH : startOf slices i0 = pos (hd vdflt (chainVertexes slices ch))).
  { unfold startOf, chainVertexes, ch. cbn [flat_map]. destruct (Hsl i0 (Hin i0 (or_introl eq_refl))) as (L & _). destruct (vertexes (sliceAt slices i0)) as [|x [|y l]]; [cbn in L; lia|cbn in L; lia|]. reflexivity. }
  rewrite EH in M. apply chain_trace in M. rewrite <- EV in M. unfold trace. destruct (chainVertexes slices ch) as [|v [|w vs]] eqn:Ev; [cbn in L2; lia|cbn in L2; lia|]. cbn [hd] in M.
  rewrite pathSegs_closed. change (map seg3 (segsOf ((v :: w :: vs) ++ [v]))) with (traceOf ((v :: w :: vs) ++ [v])). rewrite M. now rewrite flat_map_concat_map, flat_map_concat_map, map_map.
Qed.

(** the segments of the results are exactly the segments of the slices *)
Theorem stitch_complete : exists rem, stitchOrderedSlices slices sel d = Ok rem /\ List.Forall closedPline rem /\
  Permutation (flat_map trace rem) (flat_map (fun s => traceOf (vertexes s)) slices).
Proof.
  assert (Hs1 : forall s, In s slices -> (1 <= length (vertexes s))%nat). { intros s Hs. apply In_nth with (d := mkPline false []) in Hs. destruct Hs as (i & Hi & E). destruct (Hsl i Hi) as [L _]. unfold sliceAt in L. rewrite E in L. lia. }
  destruct (C34_spec slices sel d Hd Hlen Hs1 Hok) as (chains & S & E).
  destruct (stitched_props slices sel d Hok _ _ _ S) as (Nd & U & R). { intros i Hi. apply in_seq in Hi. unfold N. lia. }
  assert (P : Permutation (concat chains) (seq 0 N)).
  { apply NoDup_Permutation; [auto|apply seq_NoDup|]. intros i. split; [intros H; apply in_seq; destruct (U i H); unfold N; lia|].
    intros H. destruct (stitched_all _ _ _ S) with (i := i) as [[]|H']; auto.
    - intros j Hj. apply in_seq in Hj. unfold N. lia.
    - constructor.
    - intros j []. }
  exists (flat_map (closedChain slices) chains). split; [exact E|]. split.
  { apply List.Forall_forall. intros p Hp. apply in_flat_map in Hp. destruct Hp as (ch & _ & Hp). unfold closedChain in Hp. destruct (Nat.leb_spec 2 (length (chainVertexes slices ch))) as [L|L]; [|destruct Hp].
    destruct Hp as [<-|[]]. split; [reflexivity|exact L]. }
  assert (T : flat_map trace (flat_map (closedChain slices) chains) = flat_map (fun i => traceOf (vertexes (sliceAt slices i))) (concat chains)).
  { assert (Hin : forall ch i, In ch chains -> In i ch -> (i < N)%nat) by (intros ch i Hc Hi; apply U, in_concat; exists ch; auto). clear S E Nd U P.
    induction chains as [|ch chs IH]; [reflexivity|]. cbn [flat_map concat]. inversion R. subst. rewrite flat_map_app, flat_map_app. rewrite IH; [|auto|intros; eapply Hin; [right; eassumption|auto]]. f_equal.
    destruct (ring_trace ch) as (p & -> & Et); [auto|intros i Hi; apply (Hin ch i); [now left|auto]|]. cbn [flat_map]. now rewrite app_nil_r, Et. }
  rewrite T. rewrite (Permutation_flat_map _ P). unfold N.
  assert (G : forall pre l, slices = pre ++ l -> flat_map (fun i => traceOf (vertexes (sliceAt slices i))) (seq (length pre) (length l)) = flat_map (fun s => traceOf (vertexes s)) l).
  { intros pre l. revert pre. induction l as [|s l IH]; intros pre Ep; [reflexivity|]. cbn [length seq flat_map]. rewrite <- (IH (pre ++ [s])) by (now rewrite <- app_assoc). rewrite app_length, Nat.add_1_r. f_equal.
    unfold sliceAt. rewrite Ep, app_nth2, Nat.sub_diag by lia. reflexivity. }
  specialize (G [] slices eq_refl). cbn [length] in G. now rewrite G.
Qed.
End Euler.
