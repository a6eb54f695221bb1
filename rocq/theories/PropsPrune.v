(** * C29: pruneSingularities *)
From Coq Require Import ZArith Reals Lra Lia List Bool Arith.
From Verif Require Import Base Num MathUtils PlineSegment SpatialIndex Polyline RGeom.
Import ListNotations.

(** ** Specification: runs of vertices that collapse onto their first vertex *)
Section Spec.
Context {RO : RealOps}.

(** [g] is a run: its vertices are all at the position of its first vertex (within epsilon) *)
Definition isRun (epsilon : T) (g : list vertex) : Prop :=
  exists h t, g = h :: t /\ forall v, In v t -> fuzzyEqual (pos h) (pos v) epsilon = true.
(** what a run is replaced by: its first position with its last bulge *)
Definition collapse (g : list vertex) : vertex := setBulge (hd vdflt g) (bulge (last g vdflt)).
(** [gs] cuts a vertex list into maximal runs: each run starts off the start of the previous run *)
Fixpoint separated (epsilon : T) (gs : list (list vertex)) : Prop :=
  match gs with
  | g :: ((g' :: _) as gs') => fuzzyEqual (pos (hd vdflt g)) (pos (hd vdflt g')) epsilon = false /\ separated epsilon gs'
  | _ => True
  end.
Definition runsOf (epsilon : T) (vs : list vertex) (gs : list (list vertex)) : Prop :=
  concat gs = vs /\ List.Forall (isRun epsilon) gs /\ separated epsilon gs.

Lemma collapse_pos g : pos (collapse g) = pos (hd vdflt g).
Proof. reflexivity. Qed.

Lemma collapse_1 v : collapse [v] = v.
Proof. destruct v. reflexivity. Qed.

Lemma prune_runs epsilon vs : forall g acc, isRun epsilon g ->
  exists gs, runsOf epsilon (g ++ vs) gs /\ prune_loop epsilon acc (collapse g) vs = acc ++ map collapse gs /\ gs <> [] /\
    forall d, hd vdflt (hd d gs) = hd vdflt g.
Proof.
  induction vs as [|v vs IH]; intros g acc Hg; cbn [prune_loop].
  - exists [g]. rewrite app_nil_r. split; [|split; [reflexivity|split; [discriminate|reflexivity]]].
    split; [cbn; now rewrite app_nil_r|]. split; [repeat constructor; auto|exact I].
  - rewrite collapse_pos. destruct Hg as (h & t & -> & Ht). cbn [hd].
    destruct (fuzzyEqual (pos h) (pos v) epsilon) eqn:E.
    + destruct (IH (h :: t ++ [v]) acc) as (gs & (R1 & R2 & R3) & R4 & R5 & R6).
      { exists h, (t ++ [v]). split; auto. intros w Hw. apply in_app_or in Hw. destruct Hw as [Hw|[<-|[]]]; auto. }
      exists gs. split; [|split; [|split; auto]].
      * split; [|split; auto]. rewrite R1. cbn [app]. f_equal. now rewrite <- app_assoc.
      * rewrite <- R4. f_equal. unfold collapse. cbn [hd]. change (h :: t ++ [v]) with ((h :: t) ++ [v]). rewrite (last_last (h :: t)). reflexivity.
    + destruct (IH [v] (acc ++ [collapse (h :: t)])) as (gs & (R1 & R2 & R3) & R4 & R5 & R6).
      { exists v, []. split; [auto|intros w []]. }
      rewrite collapse_1 in R4. exists ((h :: t) :: gs). split; [|split; [|split; [discriminate|reflexivity]]].
      * split; [cbn [concat]; rewrite R1; reflexivity|]. split; [constructor; auto; exists h, t; auto|].
        destruct gs as [|g' gs]; [congruence|]. split; auto. specialize (R6 []). cbn [hd] in R6. cbn [hd]. rewrite R6. exact E.
      * rewrite R4. cbn [map]. now rewrite <- app_assoc.
Qed.

(** ** C29 *)

(** Exactly what is computed: the input is cut into maximal runs, each run is replaced by its first position with its last bulge, and for a
    closed polyline with more than one run the last run is dropped when it starts within epsilon of the first. *)
Theorem C29_exact pl epsilon : exists gs, runsOf epsilon (vertexes pl) gs /\
  isClosed (pruneSingularities pl epsilon) = isClosed pl /\
  vertexes (pruneSingularities pl epsilon) =
    if isClosed pl && (1 <? length gs)%nat && fuzzyEqual (pos (hd vdflt (last gs []))) (pos (hd vdflt (hd [] gs))) epsilon
    then map collapse (removelast gs) else map collapse gs.
Proof.
  unfold pruneSingularities. destruct (vertexes pl) as [|v0 vs] eqn:Ev.
  - exists []. split; [split; [reflexivity|split; [constructor|exact I]]|]. cbn [length Nat.ltb Nat.leb]. rewrite andb_false_r. cbn [andb]. auto.
  - destruct (prune_runs epsilon vs [v0] []) as (gs & R & E & Hne & Hh). { exists v0, []. split; [auto|intros w []]. }
    exists gs. split; [exact R|]. rewrite collapse_1 in E. cbn [app] in E. rewrite E. rewrite map_length.
    assert (El : pos (last (map collapse gs) vdflt) = pos (hd vdflt (last gs []))).
    { clear -Hne. destruct (exists_last Hne) as (l & x & ->). rewrite map_app. cbn [map]. now rewrite !last_last. }
    assert (Ehd : pos (hd vdflt (map collapse gs)) = pos (hd vdflt (hd [] gs))) by (destruct gs; [congruence|reflexivity]).
    rewrite El, Ehd. destruct (isClosed pl && (1 <? length gs)%nat) eqn:C; cbn [andb]; [|auto].
    destruct (fuzzyEqual _ _ _); cbn [isClosed vertexes]; split; auto.
    destruct (exists_last Hne) as (l & x & ->). rewrite map_app. cbn [map]. now rewrite !removelast_last.
Qed.

(** consecutive vertices of a list *)
Definition consecutive (vs : list vertex) (a b : vertex) : Prop := exists l1 l2, vs = l1 ++ a :: b :: l2.

Lemma separated_map epsilon gs : separated epsilon gs -> forall a b, consecutive (map collapse gs) a b -> fuzzyEqual (pos a) (pos b) epsilon = false.
Proof.
  induction gs as [|g gs IH]; intros Hs a b (l1 & l2 & E); [destruct l1; discriminate|].
  destruct l1 as [|x l1]; cbn [map app] in E; injection E as E1 E2.
  - destruct gs as [|g' gs]; [discriminate|]. destruct Hs as [Hs _]. cbn [map] in E2. injection E2 as E2 _. subst. exact Hs.
  - apply IH; [|exists l1, l2; auto]. destruct gs; [exact I|apply Hs].
Qed.

Lemma separated_removelast epsilon gs : separated epsilon gs -> separated epsilon (removelast gs).
Proof.
  induction gs as [|g gs IH]; intros H; [auto|]. destruct gs as [|g' gs]; [exact I|]. destruct H as [H1 H2]. specialize (IH H2).
  cbn [removelast] in *. destruct gs as [|g'' gs]; [exact I|]. split; auto.
Qed.

(** no two consecutive vertices of the result are within epsilon *)
Theorem C29_no_repeats pl epsilon a b : consecutive (vertexes (pruneSingularities pl epsilon)) a b -> fuzzyEqual (pos a) (pos b) epsilon = false.
Proof.
  destruct (C29_exact pl epsilon) as (gs & (_ & _ & Hs) & _ & E). rewrite E. destruct (_ && _).
  - apply separated_map, separated_removelast, Hs. - apply separated_map, Hs.
Qed.

(** the positions of the result are a subsequence of the input positions, starting with the first *)
Inductive subseq {A} : list A -> list A -> Prop :=
| sub_nil l : subseq [] l
| sub_take x l l' : subseq l l' -> subseq (x :: l) (x :: l')
| sub_skip x l l' : subseq l l' -> subseq l (x :: l').

Lemma subseq_app_r {A} (l l' : list A) p : subseq l l' -> subseq l (p ++ l').
Proof. induction p; intros; cbn; [auto|]. constructor. auto. Qed.

Lemma runs_subseq gs : List.Forall (fun g => g <> []) gs -> subseq (map pos (map collapse gs)) (map pos (concat gs)).
Proof.
  induction gs as [|g gs IH]; intros H; [constructor|]. inversion H. subst. destruct g as [|h t]; [congruence|].
  cbn [map concat app]. rewrite collapse_pos. cbn [hd]. constructor. rewrite map_app. apply subseq_app_r. auto.
Qed.

Lemma subseq_trans {A} (l1 l2 l3 : list A) : subseq l1 l2 -> subseq l2 l3 -> subseq l1 l3.
Proof.
  intros H1 H2. revert l1 H1. induction H2; intros l1 H1.
  - inversion H1; constructor.
  - inversion H1; subst; constructor; auto.
  - constructor. auto.
Qed.

Lemma subseq_removelast {A} (l : list A) : subseq (removelast l) l.
Proof. induction l as [|x l IH]; [constructor|]. cbn [removelast]. destruct l; constructor. exact IH. Qed.

Lemma removelast_map {A B} (f : A -> B) l : map f (removelast l) = removelast (map f l).
Proof. induction l as [|x l IH]; [auto|]. destruct l; [auto|]. cbn [removelast map] in *. now rewrite IH. Qed.

Theorem C29_subsequence pl epsilon : subseq (map pos (vertexes (pruneSingularities pl epsilon))) (map pos (vertexes pl)) /\
  hd_error (map pos (vertexes (pruneSingularities pl epsilon))) = hd_error (map pos (vertexes pl)).
Proof.
  destruct (C29_exact pl epsilon) as (gs & (<- & Hr & _) & _ & E).
  assert (Hn : List.Forall (fun g : list vertex => g <> []) gs).
  { eapply List.Forall_impl; [|exact Hr]. intros g (h & t & -> & _). discriminate. }
  rewrite E. split.
  - destruct (_ && _); [|now apply runs_subseq]. rewrite removelast_map, removelast_map.
    eapply subseq_trans; [apply subseq_removelast|]. now apply runs_subseq.
  - destruct gs as [|g gs]; [cbn [length Nat.ltb Nat.leb]; rewrite andb_false_r; reflexivity|].
    inversion Hn. subst. destruct g as [|h t]; [congruence|].
    destruct (Nat.ltb_spec 1 (length ((h :: t) :: gs))) as [L|L]; [|rewrite andb_false_r; reflexivity].
    destruct (_ && _); [|reflexivity]. destruct gs; [cbn in L; lia|reflexivity].
Qed.

(** nothing changes when there is nothing to prune *)
Theorem C29_no_op pl epsilon : (forall a b, consecutive (vertexes pl) a b -> fuzzyEqual (pos a) (pos b) epsilon = false) ->
  (isClosed pl = true -> fuzzyEqual (pos (last (vertexes pl) vdflt)) (pos (hd vdflt (vertexes pl))) epsilon = false) ->
  pruneSingularities pl epsilon = pl.
Proof.
  intros Hc Hl. unfold pruneSingularities. destruct pl as [b vs]. cbn [vertexes isClosed] in *.
  destruct vs as [|v0 vs]; [reflexivity|].
  assert (G : forall acc v, (forall a b, consecutive (v :: vs) a b -> fuzzyEqual (pos a) (pos b) epsilon = false) -> prune_loop epsilon acc v vs = acc ++ v :: vs).
  { clear. induction vs as [|w vs IH]; intros acc v H; cbn [prune_loop]; [reflexivity|].
    rewrite (H v w) by (exists [], vs; reflexivity). rewrite IH; [now rewrite <- app_assoc|].
    intros a b (l1 & l2 & E). apply H. exists (v :: l1), l2. cbn [app]. now rewrite E. }
  rewrite G by auto. cbn [app]. destruct b; cbn [andb]; [|reflexivity].
  destruct (1 <? _)%nat; [|reflexivity]. rewrite Hl by auto. reflexivity.
Qed.
End Spec.

(** the gap: in a closed polyline the closing pair of the result can still be within epsilon (the closing check runs once) *)
Open Scope R_scope.
Lemma fuzzy_x (a b e : R) : fuzzyEqual (mkV a 0) (mkV b 0) e = Rltb (Rabs (a - b)) e && Rltb (Rabs (0 - 0)) e.
Proof. reflexivity. Qed.

Theorem C29_closing_pair_refuted : exists pl epsilon, isClosed pl = true /\
  vertexes (pruneSingularities pl epsilon) = [mkVertex 0 0 0; mkVertex 5 0 0; mkVertex (1 / 2) 0 0] /\
  fuzzyEqual (mkV (1 / 2) 0) (mkV 0 0) epsilon = true.
Proof.
  exists (mkPline true [mkVertex 0 0 0; mkVertex 5 0 0; mkVertex (1 / 2) 0 0; mkVertex (- 3 / 5) 0 0]), 1.
  assert (T0 : Rltb (Rabs (0 - 0)) 1 = true) by (apply Rltb_spec; rewrite Rminus_0_r, Rabs_R0; lra).
  assert (T1 : fuzzyEqual (mkV 0 0) (mkV 5 0) 1 = false) by (rewrite fuzzy_x; apply andb_false_iff; left; apply Rltb_false; rewrite Rabs_left; lra).
  assert (T2 : fuzzyEqual (mkV 5 0) (mkV (1 / 2) 0) 1 = false) by (rewrite fuzzy_x; apply andb_false_iff; left; apply Rltb_false; rewrite Rabs_right; lra).
  assert (T3 : fuzzyEqual (mkV (1 / 2) 0) (mkV (- 3 / 5) 0) 1 = false) by (rewrite fuzzy_x; apply andb_false_iff; left; apply Rltb_false; rewrite Rabs_right; lra).
  assert (T4 : fuzzyEqual (mkV (- 3 / 5) 0) (mkV 0 0) 1 = true) by (rewrite fuzzy_x, T0, andb_true_r; apply Rltb_spec; rewrite Rabs_left; lra).
  split; [reflexivity|]. split.
  - unfold pruneSingularities, mkVertex. cbn [vertexes isClosed prune_loop pos]. rewrite T1. cbn [app pos]. rewrite T2. cbn [app pos]. rewrite T3.
    cbn [app length Nat.ltb Nat.leb andb last hd pos]. rewrite T4. reflexivity.
  - rewrite fuzzy_x, T0, andb_true_r. apply Rltb_spec. rewrite Rabs_right; lra.
Qed.
