(** * Properties of the spatial index: C01-C06, C08 (statements). *)
From Coq Require Import ZArith NArith Reals Lra List Bool Arith Lia FinFun Permutation.
From Coq Require Import Floats.SpecFloat.
From Verif Require Import Base Num SpatialIndex IndexSort Float32 IndexTree IndexQuery.
Import ListNotations.
Local Open Scope nat_scope.

(** ** Specification vocabulary *)

(** closed rectangles [q] and [b] have a common point, in terms of [<] only *)
Definition overlap {O : OrdOps} (q b : box) : Prop :=
  xltb (bMaxX q) (bMinX b) = false /\ xltb (bMaxX b) (bMinX q) = false /\
  xltb (bMaxY q) (bMinY b) = false /\ xltb (bMaxY b) (bMinY q) = false.

(** admissible template parameter and item count (for the constructor's float) *)
Definition sizesOk (NodeSize n : nat) : Prop :=
  2 <= NodeSize /\ (Z.of_nat NodeSize <= 65535)%Z /\ 1 <= n /\ (Z.of_nat n <= 2 ^ 24)%Z.

(** consecutive blocks of [NodeSize] elements *)
Definition blocks {A} (NodeSize : nat) (l : list A) : list (list A) :=
  map (fun j => firstn NodeSize (skipn (j * NodeSize) l)) (seq 0 (cdiv (length l) NodeSize)).

(** ** Order instances *)

#[global] Instance ROrdLaws : @OrdLaws ROrd (fun _ => True).
Proof.
  constructor; auto; simpl.
  - intros [|x|] _; simpl; auto. apply Rltb_false. lra.
  - intros [|x|] [|y|] _ _; simpl; auto; try discriminate.
    rewrite Rltb_spec, Rltb_false. lra.
  - intros [|x|] [|y|] [|z|] _ _ _; simpl; auto; try discriminate.
    rewrite !Rltb_false. lra.
  - intros [|x|] _; auto.
Qed.

(** IEEE binary64 coordinates, as used by the library's instances (Real = double).
    [f64hil] is staticspatialindex.hpp:83-84,89-105 in IEEE arithmetic. *)
Definition SFfloorZ (f : spec_float) : option Z :=
  match f with
  | S754_zero _ => Some 0%Z
  | S754_finite s m e =>
      let z := if s then Zneg m else Zpos m in
      Some (if (0 <=? e)%Z then (z * 2 ^ e)%Z else (z / 2 ^ (- e))%Z)
  | _ => None
  end.

Definition f64hil (lo hi mn mx : spec_float) : option N :=
  let add := SFadd 53 1024 in let sub := SFsub 53 1024 in
  let mul := SFmul 53 1024 in let div := SFdiv 53 1024 in
  let of z := binary_normalize 53 1024 z 0 false in
  match SFfloorZ (div (mul (of 65535%Z) (sub (div (add mn mx) (of 2%Z)) lo)) (sub hi lo)) with
  | Some z => if ((0 <=? z) && (z <? 4294967296))%Z then Some (Z.to_N z) else None
  | None => None
  end.

Definition F64Ord : OrdOps := {|
  X := spec_float; xltb := SFltb;
  xinf := S754_infinity false; xninf := S754_infinity true; xhil := f64hil
|}.

Definition notNaN (x : @X F64Ord) : Prop := x <> S754_nan.

Lemma SFltb_cases s1 m1 e1 s2 m2 e2 :
  SFltb (S754_finite s1 m1 e1) (S754_finite s2 m2 e2) =
  match s1, s2 with
  | true, false => true
  | false, true => false
  | false, false => match Z.compare e1 e2 with Lt => true | Gt => false
                    | Eq => match Pos.compare m1 m2 with Lt => true | _ => false end end
  | true, true => match Z.compare e1 e2 with Lt => false | Gt => true
                    | Eq => match Pos.compare m1 m2 with Gt => true | _ => false end end
  end.
Proof.
  unfold SFltb, SFcompare. destruct s1, s2; auto; destruct (Z.compare e1 e2); auto;
  rewrite Pos.compare_cont_spec; destruct (Pos.compare m1 m2); auto.
Qed.

#[global] Instance F64OrdLaws : @OrdLaws F64Ord notNaN.
Proof.
  unfold notNaN. constructor; cbn [X F64Ord xltb xinf xninf].
  - intros [[]|[]| |s m e] H; auto; try (now destruct H).
    rewrite SFltb_cases. destruct s; rewrite Z.compare_refl, Pos.compare_refl; auto.
  - intros [[]|[]| |s1 m1 e1] [[]|[]| |s2 m2 e2] H1 H2; auto;
    try (now destruct H1); try (now destruct H2); try (destruct s1); try (destruct s2);
    try discriminate; auto;
    rewrite !SFltb_cases; rewrite (Z.compare_antisym e1 e2), (Pos.compare_antisym m1 m2);
    destruct (Z.compare e1 e2), (Pos.compare m1 m2); simpl; auto; discriminate.
  - intros [[]|[]| |s1 m1 e1] [[]|[]| |s2 m2 e2] [[]|[]| |s3 m3 e3] H1 H2 H3; auto;
    try (now destruct H1); try (now destruct H2); try (now destruct H3);
    try destruct s1; try destruct s2; try destruct s3; try discriminate; auto;
    rewrite ?SFltb_cases;
    destruct (Z.compare_spec e1 e2), (Pos.compare_spec m1 m2);
    try discriminate; intros _;
    destruct (Z.compare_spec e2 e3), (Pos.compare_spec m2 m3);
    try discriminate; intros _;
    destruct (Z.compare_spec e1 e3), (Pos.compare_spec m1 m3); auto; try lia.
  - discriminate.
  - discriminate.
  - intros [[]|[]| |[] m e] H; auto.
  - intros [[]|[]| |[] m e] H; auto.
Qed.

Lemma noOverlap_overlap {O : OrdOps} q b : negb (noOverlap q b) = true <-> overlap q b.
Proof.
  unfold noOverlap, overlap. rewrite negb_true_iff, !orb_false_iff. tauto.
Qed.

Lemma boxUnion_least {O : OrdOps} (ok : X -> Prop) {OL : OrdLaws ok} (l : list box) (e : box) :
  okBox ok e -> (forall b, In b l -> encloses e b) -> encloses e (boxUnion l).
Proof.
  intros He. unfold boxUnion.
  assert (G : forall l a, encloses e a -> (forall b, In b l -> encloses e b) ->
    encloses e (fold_left bu l a)).
  { clear l. induction l as [|b l IH]; intros a Ha Hl; simpl; auto.
    apply IH; [|intros; apply Hl; now right].
    destruct Ha as (A1 & A2 & A3 & A4).
    destruct (Hl b (or_introl eq_refl)) as (B1 & B2 & B3 & B4).
    unfold bu, encloses. simpl.
    repeat split; match goal with |- context [if ?c then _ else _] => destruct c end; auto. }
  apply G. destruct He as (? & ? & ? & ?).
  repeat split; simpl; (now apply (ol_max (ok := ok))) || (now apply (ol_min (ok := ok))).
Qed.

Lemma firstn_seq_min k a m : firstn k (seq a m) = seq a (Nat.min k m).
Proof.
  revert a m. induction k; intros a m; simpl; auto. destruct m; simpl; auto.
  now rewrite IHk.
Qed.

Lemma Permutation_refl_eq {A} (l l' : list A) : l = l' -> Permutation l l'.
Proof. intros ->. apply Permutation_refl. Qed.

Lemma Permutation_flat_map_l {A B} (f : A -> list B) l l' :
  Permutation l l' -> Permutation (flat_map f l) (flat_map f l').
Proof. apply Permutation_flat_map. Qed.

(** ** C01 *)

(** Query results are exactly the insertion indices of the overlapping boxes, each once,
    appended to the caller's vector; building and querying run to completion without UB. *)
Theorem C01_query_exact (O : OrdOps) (ok : X -> Prop) (OL : OrdLaws ok)
    (NodeSize : nat) (bs : list box) :
  sizesOk NodeSize (length bs) -> Forall (okBox ok) bs ->
  (length bs <= NodeSize \/ hilOk bs) ->
  exists ix, build NodeSize bs = Ok ix /\
    forall (q : box) (results : list nat), okBox ok q ->
    exists l, query NodeSize ix (bMinX q) (bMinY q) (bMaxX q) (bMaxY q) results
                = Ok (results ++ l) /\
      NoDup l /\
      (forall i, In i l <-> exists b, nth_error bs i = Some b /\ overlap q b).
Proof.
  intros (HN & HN' & Hn & Hn') Hok Hh.
  destruct (build_wf NodeSize bs Hn Hn' HN HN' Hh) as (L & ix & E & W).
  exists ix. split; [exact E|]. intros q rs Hq.
  destruct (wf_items _ _ _ _ W) as (ids & P & Hids).
  assert (Hl : length ids = length bs) by (rewrite (Permutation_length P); apply seq_length).
  destruct (query_hits ok NodeSize HN bs L ix W Hok q Hq ids Hids Hl rs) as (rs' & Eq & Pq).
  unfold query. fold collect.
  pose proof Eq as Eq'. unfold visitQuery in Eq'.
  destruct (query_sim collect _ _ _ _ _ _ _ _ _ Eq') as (l & El & _).
  exists l. subst rs'. split; [exact Eq|].
  apply Permutation_app_inv_l in Pq.
  rewrite (hits_ids NodeSize HN bs ix q ids Hids Hl) in Pq.
  split.
  - apply (Permutation_NoDup (Permutation_sym Pq)). apply NoDup_filter.
    apply (Permutation_NoDup (Permutation_sym P)), seq_NoDup.
  - intros i. split.
    + intros Hi. apply (Permutation_in _ Pq) in Hi. apply filter_In in Hi.
      destruct Hi as [_ Hi]. destruct (nth_error bs i) as [b|]; [|discriminate].
      exists b. split; auto. now apply noOverlap_overlap.
    + intros (b & Hb & Ho). apply (Permutation_in _ (Permutation_sym Pq)). apply filter_In.
      split.
      * apply (Permutation_in _ (Permutation_sym P)). apply in_seq.
        assert (i < length bs) by (apply nth_error_Some; congruence). lia.
      * rewrite Hb. now apply noOverlap_overlap.
Qed.

(** IEEE doubles *)
Corollary C01_query_exact_double NodeSize (bs : list (@box F64Ord)) :
  sizesOk NodeSize (length bs) -> Forall (okBox notNaN) bs ->
  (length bs <= NodeSize \/ hilOk bs) ->
  exists ix, build NodeSize bs = Ok ix /\
    forall (q : @box F64Ord) results, okBox notNaN q ->
    exists l, query NodeSize ix (bMinX q) (bMinY q) (bMaxX q) (bMaxY q) results
                = Ok (results ++ l) /\
      NoDup l /\
      (forall i, In i l <-> exists b, nth_error bs i = Some b /\ overlap q b).
Proof. apply C01_query_exact, F64OrdLaws. Qed.

(** ** C02 *)
Theorem C02_visitor_prefix (O : OrdOps) (ok : X -> Prop) (OL : OrdLaws ok)
    (NodeSize : nat) (bs : list box) (ix : index) (q : box) :
  sizesOk NodeSize (length bs) -> Forall (okBox ok) bs ->
  (length bs <= NodeSize \/ hilOk bs) -> okBox ok q ->
  build NodeSize bs = Ok ix ->
  exists l, query NodeSize ix (bMinX q) (bMinY q) (bMaxX q) (bMaxY q) [] = Ok l /\
    forall (St : Type) (visitor : St -> nat -> bool * St) (st : St),
      visitQuery NodeSize ix (bMinX q) (bMinY q) (bMaxX q) (bMaxY q) visitor st
      = Ok (snd (runVisitor visitor st l)).
Proof.
  intros Hs Hok Hh Hq Hb.
  destruct (C01_query_exact O ok OL NodeSize bs Hs Hok Hh) as (ix' & E & H).
  assert (ix' = ix) by congruence. subst ix'.
  destruct (H q [] Hq) as (l & El & _). exists l. split; [exact El|].
  intros St v st. unfold query, visitQuery in *. fold collect in El.
  destruct (query_sim v _ _ _ _ _ _ _ _ _ El) as (l' & El' & Hsim).
  simpl in El'. subst l'. apply Hsim.
Qed.

(** [runVisitor] calls the visitor on a prefix, and on nothing after the first [false]:
    recording the calls shows it. *)
Theorem C02_runVisitor_is_prefix {St A} (visitor : St -> A -> bool * St) (st : St) (l : list A) :
  let logged := fun (s : St * list A) a =>
      let '(go, st') := visitor (fst s) a in (go, (st', snd s ++ [a])) in
  exists p r, l = p ++ r /\
    runVisitor logged (st, []) l = (fst (runVisitor visitor st l), (snd (runVisitor visitor st l), p)) /\
    (fst (runVisitor visitor st l) = true -> r = []) /\
    (fst (runVisitor visitor st l) = false -> exists p' a, p = p' ++ [a] /\
       fst (runVisitor visitor st p') = true /\
       fst (visitor (snd (runVisitor visitor st p')) a) = false).
Proof.
  intros logged.
  assert (G : forall l st acc, exists p r, l = p ++ r /\
    runVisitor logged (st, acc) l =
      (fst (runVisitor visitor st l), (snd (runVisitor visitor st l), acc ++ p)) /\
    (fst (runVisitor visitor st l) = true -> r = []) /\
    (fst (runVisitor visitor st l) = false -> exists p' a, p = p' ++ [a] /\
       fst (runVisitor visitor st p') = true /\
       fst (visitor (snd (runVisitor visitor st p')) a) = false)).
  { clear l st. induction l as [|a l IH]; intros st acc.
    - exists [], []. simpl. rewrite app_nil_r. repeat split; auto. discriminate.
    - simpl. unfold logged at 1. simpl.
      destruct (visitor st a) as [[] st1] eqn:Ev.
      + destruct (IH st1 (acc ++ [a])) as (p & r & -> & E & H1 & H2).
        exists (a :: p), r. rewrite E, <- app_assoc. simpl. repeat split; auto.
        intros Hf. destruct (H2 Hf) as (p' & a' & -> & H3 & H4).
        exists (a :: p'), a'. simpl. rewrite Ev. auto.
      + exists [a], l. simpl. repeat split; auto; [discriminate|].
        intros _. exists [], a. simpl. rewrite Ev. auto. }
  destruct (G l st []) as (p & r & H). exists p, r. exact H.
Qed.

(** ** C03 *)
Theorem C03_items_and_extents (O : OrdOps) (ok : X -> Prop) (OL : OrdLaws ok)
    (NodeSize : nat) (bs : list box) :
  sizesOk NodeSize (length bs) -> Forall (okBox ok) bs ->
  (length bs <= NodeSize \/ hilOk bs) ->
  exists ix, build NodeSize bs = Ok ix /\
    (exists l : list (nat * box),
       Permutation l (combine (seq 0 (length bs)) bs) /\
       forall (St : Type) (visitor : St -> nat -> box -> bool * St) (st : St),
         visitItemBoxes ix visitor st
         = Ok (snd (runVisitor (fun st p => visitor st (fst p) (snd p)) st l))) /\
    (* the reported extents enclose every box and no smaller rectangle does *)
    (let e := mkBox (m_minX ix) (m_minY ix) (m_maxX ix) (m_maxY ix) in
     (forall b, In b bs -> encloses e b) /\
     (forall e', okBox ok e' -> (forall b, In b bs -> encloses e' b) -> encloses e' e)).
Proof.
  intros (HN & HN' & Hn & Hn') Hok Hh.
  destruct (build_wf NodeSize bs Hn Hn' HN HN' Hh) as (L & ix & E & W).
  exists ix. split; [exact E|].
  destruct (wf_items _ _ _ _ W) as (ids & P & Hids).
  assert (Hl : length ids = length bs) by (rewrite (Permutation_length P); apply seq_length).
  split.
  - exists (map (fun i => (nth i ids 0, getB (m_boxes ix) i)) (seq 0 (length bs))). split.
    + transitivity (map (fun k => (k, nth k bs emptyBox)) ids).
      * assert (Q : map (fun i => (nth i ids 0, getB (m_boxes ix) i)) (seq 0 (length bs))
                    = map (fun k => (k, nth k bs emptyBox)) ids).
        { apply nth_error_ext. intros i. rewrite !nth_error_map.
          destruct (nth_error ids i) as [k|] eqn:Ei.
          - assert (i < length ids) by (apply nth_error_Some; congruence).
            rewrite (nth_error_nth' _ 0) by (rewrite seq_length; lia).
            rewrite seq_nth by lia. simpl.
            destruct (Hids i k Ei) as (_ & b & Hb & Hx).
            rewrite (nth_error_nth _ _ _ Ei). unfold getB. rewrite Hx.
            now rewrite (nth_error_nth _ _ _ Hb).
          - apply nth_error_None in Ei.
            assert (nth_error (seq 0 (length bs)) i = None) as ->; auto.
            apply nth_error_None. rewrite seq_length. lia. }
        rewrite Q. apply Permutation_refl.
      * rewrite P. 
        assert (Q : map (fun k => (k, nth k bs emptyBox)) (seq 0 (length bs))
                    = combine (seq 0 (length bs)) bs).
        { assert (G : forall bs a, map (fun k => (k, nth (k - a) bs emptyBox)) (seq a (length bs))
                     = combine (seq a (length bs)) bs).
          { clear. induction bs as [|b bs IH]; intros a; auto. simpl. f_equal.
            - rewrite Nat.sub_diag. reflexivity.
            - rewrite <- IH. apply map_ext_in. intros k Hk. apply in_seq in Hk. f_equal.
              replace (k - a) with (S (k - S a)) by lia. reflexivity. }
          rewrite <- (G bs 0). apply map_ext. intros k. now rewrite Nat.sub_0_r. }
        rewrite Q. apply Permutation_refl.
    + intros St v st. unfold visitItemBoxes. unfold rgetI at 1.
      rewrite (wf_lb _ _ _ _ W 0) by lia. cbn [bind].
      change (4 * start NodeSize (length bs) 1) with (4 * length bs).
      pose proof (itemBoxes_loop_spec NodeSize HN bs L ix W ids Hids Hl v (S (m_numNodes ix)) 0 st) as Q.
      change (4 * 0) with 0 in Q. rewrite Q.
      * now rewrite Nat.sub_0_r.
      * lia.
      * pose proof (s_le_nodes NodeSize bs L ix W 1 ltac:(pose proof (wf_L _ _ _ _ W); lia)).
        simpl in *. lia.
  - cbv zeta. rewrite (wf_ext _ _ _ _ W). split.
    + intros b Hb. now apply (boxUnion_encl ok).
    + intros e' He' Hall. apply (boxUnion_least ok); auto.
Qed.

(** ** C04 *)
Theorem C04_tree_walk (O : OrdOps) (ok : X -> Prop) (OL : OrdLaws ok)
    (NodeSize : nat) (bs : list box) :
  sizesOk NodeSize (length bs) -> Forall (okBox ok) bs ->
  (length bs <= NodeSize \/ hilOk bs) ->
  exists ix, build NodeSize bs = Ok ix /\
  exists (L : nat) (lvl : nat -> list box) (reports : list (nat * box)),
    (* level 0 holds the items, every further level the bounding boxes of the blocks of
       NodeSize boxes of the level below, the top level is a single box *)
    Permutation (lvl 0) bs /\
    (forall k, k < L -> lvl (S k) = map boxUnion (blocks NodeSize (lvl k))) /\
    length (lvl L) = 1 /\ m_numLevels ix = L + 1 /\
    (* exactly the boxes of all levels are reported, with their level *)
    Permutation reports (flat_map (fun k => map (pair k) (lvl k)) (seq 0 (L + 1))) /\
    forall (St : Type) (visitor : St -> nat -> box -> bool * St) (st : St),
      visitBoundingBoxes NodeSize ix visitor st
      = Ok (snd (runVisitor (fun st p => visitor st (fst p) (snd p)) st reports)).
Proof.
  intros (HN & HN' & Hn & Hn') Hok Hh.
  destruct (build_wf NodeSize bs Hn Hn' HN HN' Hh) as (L & ix & E & W).
  exists ix. split; [exact E|].
  destruct (wf_items _ _ _ _ W) as (ids & P & Hids).
  assert (Hl : length ids = length bs) by (rewrite (Permutation_length P); apply seq_length).
  destruct (bb_all NodeSize HN bs L ix W ids Hids Hl) as (rs & Er & Pr).
  rewrite (rep_full NodeSize HN) in Pr.
  exists L, (fun k => map (fun p => getB (m_boxes ix) (start NodeSize (length bs) k + p))
                        (seq 0 (cnt NodeSize (length bs) k))), rs.
  split; [|split; [|split; [|split; [|split]]]].
  - simpl. transitivity (map (fun k => nth k bs emptyBox) ids).
    + assert (Q : map (fun i => getB (m_boxes ix) i) (seq 0 (length bs))
                  = map (fun k => nth k bs emptyBox) ids).
      { apply nth_error_ext. intros i. rewrite !nth_error_map.
        destruct (nth_error ids i) as [k|] eqn:Ei.
        - assert (i < length ids) by (apply nth_error_Some; congruence).
          rewrite (nth_error_nth' _ 0) by (rewrite seq_length; lia).
          rewrite seq_nth by lia. simpl.
          destruct (Hids i k Ei) as (_ & b & Hb & Hx).
          unfold getB. rewrite Hx. now rewrite (nth_error_nth _ _ _ Hb).
        - apply nth_error_None in Ei.
          assert (nth_error (seq 0 (length bs)) i = None) as ->; auto.
          apply nth_error_None. rewrite seq_length. lia. }
      rewrite Q. apply Permutation_refl.
    + rewrite P. assert (Q : map (fun k => nth k bs emptyBox) (seq 0 (length bs)) = bs).
      { apply nth_error_ext. intros i. rewrite nth_error_map.
        destruct (lt_dec i (length bs)) as [Hi|Hi].
        - rewrite (nth_error_nth' _ 0) by (rewrite seq_length; lia).
          rewrite seq_nth by lia. simpl. symmetry. now apply nth_error_nth'.
        - assert (nth_error (seq 0 (length bs)) i = None) as ->.
          { apply nth_error_None. rewrite seq_length. lia. }
          symmetry. apply nth_error_None. lia. }
      rewrite Q. apply Permutation_refl.
  - intros k Hk. unfold blocks. rewrite map_length, seq_length.
    change (cdiv (cnt NodeSize (length bs) k) NodeSize) with (cnt NodeSize (length bs) (S k)).
    rewrite map_map. apply map_ext_in. intros j Hj. apply in_seq in Hj.
    rewrite (node_box NodeSize HN bs L ix W) by lia. f_equal.
    rewrite skipn_map, firstn_map. f_equal.
    assert (Hlt : j * NodeSize < cnt NodeSize (length bs) k) by (apply cdiv_spec; [lia|]; simpl in Hj; lia).
    remember (cnt NodeSize (length bs) k) as cc.
    replace cc with (j * NodeSize + (cc - j * NodeSize)) at 2 by lia.
    rewrite seq_app, skipn_app, skipn_all2 by (rewrite seq_length; lia).
    rewrite seq_length, Nat.sub_diag. simpl.
    rewrite firstn_seq_min. f_equal. lia.
  - rewrite map_length, seq_length. apply (wf_top _ _ _ _ W).
  - rewrite (wf_levels _ _ _ _ W). lia.
  - rewrite Pr. replace (L + 1) with (S L) by lia.
    rewrite (Permutation_flat_map_l _ _ _ (Permutation_sym (Permutation_rev (seq 0 (S L))))).
    apply Permutation_refl_eq. apply flat_map_ext. intros k. unfold cells.
    rewrite Nat.sub_0_r, map_map. reflexivity.
  - intros St v st. unfold visitBoundingBoxes in *.
    destruct (bb_sim v _ _ _ _ _ _ _ _ Er) as (l & El & H). simpl in El. subst l. apply H.
Qed.

(** the box computed for a block is its least enclosing box *)
Theorem C04_union_least (O : OrdOps) (ok : X -> Prop) (OL : OrdLaws ok) (l : list box) :
  Forall (okBox ok) l ->
  okBox ok (boxUnion l) /\ (forall b, In b l -> encloses (boxUnion l) b) /\
  (forall e, okBox ok e -> (forall b, In b l -> encloses e b) -> encloses e (boxUnion l)).
Proof.
  intros H. split; [now apply boxUnion_ok|]. split.
  - intros b Hb. now apply (boxUnion_encl ok).
  - intros e He Hall. now apply (boxUnion_least ok).
Qed.

(** ** C05 *)

(** Up to 2^24 items the allocation fits exactly: the build succeeds, fills every allocated
    cell and ends exactly at the end of the allocation; the allocation is the number of
    nodes of the packed tree. *)
Theorem C05_allocation_exact (O : OrdOps) (NodeSize : nat) (bs : list box) :
  sizesOk NodeSize (length bs) -> (length bs <= NodeSize \/ hilOk bs) ->
  exists ix L, build NodeSize bs = Ok ix /\
    cnt NodeSize (length bs) L = 1 /\
    m_numNodes ix = list_sum (map (cnt NodeSize (length bs)) (seq 0 (L + 1))) /\
    m_pos ix = 4 * m_numNodes ix /\
    length (m_boxes ix) = m_numNodes ix /\ length (m_indices ix) = m_numNodes ix /\
    (forall i, i < m_numNodes ix -> exists b, nth_error (m_boxes ix) i = Some (Some b)).
Proof.
  intros (HN & HN' & Hn & Hn') Hh.
  destruct (build_wf NodeSize bs Hn Hn' HN HN' Hh) as (L & ix & E & W).
  exists ix, L. split; [exact E|].
  split; [apply (wf_top _ _ _ _ W)|]. split.
  - rewrite (wf_nodes _ _ _ _ W). clear.
    assert (G : forall k, start NodeSize (length bs) k
                = list_sum (map (cnt NodeSize (length bs)) (seq 0 k))).
    { induction k; auto. rewrite seq_S, map_app, list_sum_app. simpl. rewrite IHk. simpl. lia. }
    rewrite G. do 3 f_equal. lia.
  - repeat split; try apply W.
Qed.

(** everything of [build] before the level construction, for more than NodeSize items *)
Lemma build_presort {O : OrdOps} NodeSize bs L :
  2 <= NodeSize -> NodeSize < length bs -> fTop NodeSize (length bs) L -> L <= length bs + 2 ->
  length bs <= fstart NodeSize (length bs) (S L) -> hilOk bs ->
  exists lb bxs ixs e1 e2 e3 e4,
    (forall m, m <= L -> nth_error lb m = Some (Some (4 * fstart NodeSize (length bs) (S m)))) /\
    length bxs = fstart NodeSize (length bs) (S L) /\ length ixs = length bxs /\
    inited bxs (length bs) /\
    build NodeSize bs =
      (let! s := levels_loop L NodeSize lb 0 (mkBuild 0 bxs ixs (4 * length bs)) in
       Ok (mkIndex e1 e2 e3 e4 (length bs) (S L) lb (fstart NodeSize (length bs) (S L))
             (bsBoxes s) (bsIndices s) (bsMPos s))).
Proof.
  intros HN Hgt FT HL HN1 Hh. set (n := length bs) in *.
  destruct (construct_spec NodeSize n L FT HL) as (lb & E & Hlb1 & Hlb).
  unfold build. fold n. rewrite E. cbn [bind].
  set (N := fstart NodeSize n (S L)) in *.
  match goal with |- context [addAll ?i bs] => set (ix0 := i) end.
  destruct (addAll_spec bs ix0 0) as (bxs & ixs & E1 & L1 & L2 & _ & _ & A3 & A4).
  { reflexivity. } { simpl. rewrite repeat_length. fold n. lia. }
  { simpl. rewrite repeat_length. fold n. lia. }
  simpl Nat.add in *. fold n in E1, A4.
  change (mkBox (m_minX ix0) (m_minY ix0) (m_maxX ix0) (m_maxY ix0)) with emptyBox in E1.
  fold (boxUnion bs) in E1. simpl in L1, L2. rewrite repeat_length in L1, L2.
  rewrite E1. cbn [bind]. clear E1. unfold finish.
  cbn [m_numItems m_indices m_boxes m_minX m_minY m_maxX m_maxY m_pos m_levelBounds m_numLevels m_numNodes].
  change (m_numItems ix0) with n. change (m_levelBounds ix0) with lb.
  change (m_numLevels ix0) with (S L). change (m_numNodes ix0) with N.
  assert (In0 : inited bxs n).
  { intros i Hi. destruct (nth_error bs i) as [b|] eqn:Eb.
    - exists b. now apply A3.
    - apply nth_error_None in Eb. fold n in Eb. lia. }
  destruct (Nat.leb_spec n NodeSize); [lia|].
  destruct (mmap_ok (fun i => let! b := rgetI bxs i in
      hilbertValue (mkIndex (bMinX (boxUnion bs)) (bMinY (boxUnion bs)) (bMaxX (boxUnion bs))
        (bMaxY (boxUnion bs)) n (S L) lb N bxs ixs (4 * n)) b) (seq 0 n)) as (hv & -> & Lhv).
  { intros i Hi. apply in_seq in Hi. rewrite (rgetI_getB _ _ n) by (auto; lia). cbn [bind].
    unfold hilbertValue. cbn [m_minX m_minY m_maxX m_maxY].
    assert (HI : In (getB bxs i) bs).
    { destruct (nth_error bs i) as [b|] eqn:Eb.
      - unfold getB. rewrite (A3 _ _ Eb). eapply nth_error_In; eauto.
      - apply nth_error_None in Eb. fold n in Eb. lia. }
    destruct (Hh _ HI) as [H1 H2].
    destruct (xhil (bMinX _) _ _ _); [|congruence].
    destruct (xhil (bMinY _) _ _ _); [|congruence]. simpl. eauto. }
  rewrite seq_length in Lhv. cbn [bind].
  destruct (sort_spec NodeSize ltac:(lia) (n + 1) (mkSort hv bxs ixs) 0 (n - 1))
    as (s & -> & (Ls1 & Ls2 & Ls3) & Re & _); try lia.
  { repeat split; simpl; lia. }
  simpl in Ls1, Ls2, Ls3. cbn [bind].
  destruct Re as (f & Fi & F1 & F2 & _ & F4 & F5). simpl in F4, F5.
  exists lb, (sBoxes s), (sIndices s). do 4 eexists.
  split; [exact Hlb|]. split; [lia|]. split; [lia|]. split.
  - intros i Hi. rewrite F4. apply In0. specialize (F1 i). lia.
  - replace (S L - 1) with L by lia. reflexivity.
Qed.

(** The remaining levels run one cell ahead of the allocation and fall off its end. *)
Lemma levels_loop_overrun {O : OrdOps} NodeSize n lb L : 1 <= NodeSize ->
  (forall m, m <= L -> nth_error lb m = Some (Some (4 * fstart NodeSize n (S m)))) ->
  (forall k, k <= L -> 1 <= fcnt NodeSize n k) ->
  (forall k, 1 <= k < L -> cdiv (fcnt NodeSize n k) NodeSize = fcnt NodeSize n (S k)) ->
  forall k i bxs ixs, 1 <= k -> 1 <= i -> i + k = L ->
  length bxs = fstart NodeSize n (S L) -> length ixs = length bxs ->
  inited bxs (fstart NodeSize n (S i) + 1) ->
  levels_loop k NodeSize lb i
    (mkBuild (4 * fstart NodeSize n i) bxs ixs (4 * (fstart NodeSize n (S i) + 1))) = UB.
Proof.
  intros HN Hlb Hpos Hex. induction k; intros i bxs ixs Hk Hi HiL Hlen Hli Hin; [lia|].
  assert (mono : forall a b, a <= b -> fstart NodeSize n a <= fstart NodeSize n b).
  { intros a b H. induction H; simpl; lia. }
  cbn [levels_loop]. unfold rgetI at 1. rewrite Hlb by lia. cbn [bind bsBoxes].
  pose proof (inited_len _ _ Hin) as Hil.
  destruct (level_loop_spec NodeSize (fstart NodeSize n (S i)) HN (S (length bxs))
              (fstart NodeSize n i) (fstart NodeSize n (S i) + 1) bxs ixs) as [H1 H2]; auto.
  { lia. }
  { replace (fstart NodeSize n (S i) - fstart NodeSize n i) with (fcnt NodeSize n i) by (simpl; lia).
    pose proof (cdiv_le (fcnt NodeSize n i) NodeSize ltac:(apply Hpos; lia) HN).
    cbn [fstart] in Hil. lia. }
  replace (fstart NodeSize n (S i) - fstart NodeSize n i) with (fcnt NodeSize n i) in H1, H2 by (simpl; lia).
  rewrite Hex in H1, H2 by lia.
  replace (fstart NodeSize n (S i) + 1 + fcnt NodeSize n (S i))
    with (fstart NodeSize n (S (S i)) + 1) in H1, H2 by (simpl; lia).
  destruct (Nat.eq_dec (S i) L) as [El|Hne].
  - rewrite H2; [reflexivity|]. rewrite Hlen, <- El. lia.
  - destruct H1 as (bxs' & ixs' & E & L1 & L2 & I1 & _).
    { rewrite Hlen. assert (fstart NodeSize n (S (S (S i))) <= fstart NodeSize n (S L)) by (apply mono; lia).
      assert (1 <= fcnt NodeSize n (S (S i))) by (apply Hpos; lia). cbn [fstart] in *. lia. }
    rewrite E. cbn [bind]. replace (i + 1) with (S i) by lia. apply IHk; auto; lia.
Qed.

(** With one more item (and the library's default NodeSize) the build writes past the end of
    the allocation, whatever the boxes are. *)
Theorem C05_overflow_beyond (O : OrdOps) (bs : list box) :
  Z.of_nat (length bs) = (2 ^ 24 + 1)%Z -> hilOk bs -> build 16 bs = UB.
Proof.
  intros Hn Hh.
  set (n := length bs) in *.
  assert (Hc : forall k z z', Z.of_nat k = z -> ceilDivF_Z z 16 = z' -> (0 <= z')%Z ->
    Z.of_nat (ceilDivF k 16) = z').
  { intros k z z' H1 H2 H3. unfold ceilDivF. rewrite H1. change (Z.of_nat 16) with 16%Z.
    rewrite H2. now apply Z2Nat.id. }
  assert (F0 : Z.of_nat (fcnt 16 n 0) = 16777217%Z) by (simpl; lia).
  assert (F1 : Z.of_nat (fcnt 16 n 1) = 1048576%Z).
  { apply (Hc _ 16777217%Z); [exact F0|vm_compute; reflexivity|lia]. }
  assert (F2 : Z.of_nat (fcnt 16 n 2) = 65536%Z).
  { apply (Hc _ 1048576%Z); [exact F1|vm_compute; reflexivity|lia]. }
  assert (F3 : Z.of_nat (fcnt 16 n 3) = 4096%Z).
  { apply (Hc _ 65536%Z); [exact F2|vm_compute; reflexivity|lia]. }
  assert (F4 : Z.of_nat (fcnt 16 n 4) = 256%Z).
  { apply (Hc _ 4096%Z); [exact F3|vm_compute; reflexivity|lia]. }
  assert (F5 : Z.of_nat (fcnt 16 n 5) = 16%Z).
  { apply (Hc _ 256%Z); [exact F4|vm_compute; reflexivity|lia]. }
  assert (F6 : Z.of_nat (fcnt 16 n 6) = 1%Z).
  { apply (Hc _ 16%Z); [exact F5|vm_compute; reflexivity|lia]. }
  assert (FT : fTop 16 n 6).
  { split; [lia|]. split; [lia|]. intros k Hk.
    assert (k = 1 \/ k = 2 \/ k = 3 \/ k = 4 \/ k = 5) as [->|[->|[->|[->| ->]]]] by lia; lia. }
  assert (Hge : n <= fstart 16 n 7) by (cbn [fstart] in *; lia).
  destruct (build_presort 16 bs 6 ltac:(lia) ltac:(fold n; lia) FT ltac:(fold n; lia) Hge Hh)
    as (lb & bxs & ixs & e1 & e2 & e3 & e4 & Hlb & L1 & L2 & Hin & ->).
  fold n in Hlb, L1, L2, Hin |- *. cbn [levels_loop]. unfold rgetI at 1. rewrite Hlb by lia. cbn [bind bsBoxes].
  change (fstart 16 n 1) with n.
  destruct (level_loop_spec 16 n ltac:(lia) (S (length bxs)) 0 n bxs ixs)
    as [H1 _]; auto; try lia.
  { rewrite Nat.sub_0_r. rewrite L1.
    pose proof (cdiv_le n 16 ltac:(lia) ltac:(lia)). lia. }
  rewrite Nat.sub_0_r in H1.
  assert (Hcd : cdiv n 16 = fcnt 16 n 1 + 1).
  { apply Nat2Z.inj. unfold cdiv. rewrite Nat2Z.inj_div.
    replace (Z.of_nat (n + 16 - 1)) with 16777232%Z by lia.
    rewrite Nat2Z.inj_add, F1. reflexivity. }
  destruct H1 as (bxs' & ixs' & E & L1' & L2' & I1 & _).
  { rewrite Hcd, L1. cbn [fstart] in *. lia. }
  change (4 * 0) with 0 in E. rewrite E. cbn [bind].
  rewrite Hcd in *.
  replace (n + (fcnt 16 n 1 + 1)) with (fstart 16 n 2 + 1) in * by (cbn [fstart fcnt]; lia).
  change (4 * n) with (4 * fstart 16 n 1).
  change ((let! s0 := levels_loop 5 16 lb (0 + 1) (mkBuild (4 * fstart 16 n 1) bxs' ixs' (4 * (fstart 16 n 2 + 1))) in
    Ok (mkIndex e1 e2 e3 e4 n 7 lb (fstart 16 n 7) (bsBoxes s0) (bsIndices s0) (bsMPos s0))) = UB).
  rewrite (levels_loop_overrun 16 n lb 6); auto; try lia.
  - intros k Hk.
    assert (k = 0 \/ k = 1 \/ k = 2 \/ k = 3 \/ k = 4 \/ k = 5 \/ k = 6)
      as [->|[->|[->|[->|[->|[->| ->]]]]]] by lia; lia.
  - intros k Hk. change (fcnt 16 n (S k)) with (ceilDivF (fcnt 16 n k) 16).
    symmetry. apply ceilDivF_exact; try lia.
    assert (k = 1 \/ k = 2 \/ k = 3 \/ k = 4 \/ k = 5) as [->|[->|[->|[->| ->]]]] by lia; lia.
Qed.

(** such a list of boxes exists (exact reals) *)
Theorem C05_overflow_reachable :
  exists bs : list (@box ROrd), Z.of_nat (length bs) = (2 ^ 24 + 1)%Z /\ build 16 bs = UB.
Proof.
  set (b := @mkBox ROrd (Fin 0) (Fin 0) (Fin 1) (Fin 1)).
  assert (Hex : exists n, Z.of_nat n = (2 ^ 24)%Z) by (exists (Z.to_nat (2 ^ 24)); apply Z2Nat.id; lia).
  destruct Hex as [n Hn0].
  exists (b :: repeat b n).
  assert (Hl : Z.of_nat (length (b :: repeat b n)) = (2 ^ 24 + 1)%Z).
  { simpl length. rewrite repeat_length. lia. }
  split; [exact Hl|]. apply C05_overflow_beyond; [exact Hl|].
  assert (Hu : boxUnion (b :: repeat b n) = b).
  { unfold boxUnion. simpl fold_left.
    assert (E0 : bu emptyBox b = b) by reflexivity. rewrite E0.
    assert (E1 : bu b b = b).
    { unfold bu, b. simpl. unfold Rltb.
      repeat match goal with |- context [Rlt_dec ?x ?y] => destruct (Rlt_dec x y) end; reflexivity. }
    clear -E1. induction n as [|n IH]; auto. simpl. rewrite E1. exact IH. }
  intros b' Hb'. assert (b' = b).
  { destruct Hb' as [<-|Hb']; auto. now apply repeat_spec in Hb'. }
  subst b'. rewrite Hu. simpl. unfold Rhil.
  assert (Hf : Zfloor (65535 * ((0 + 1) / 2 - 0) / (1 - 0)) = 32767%Z).
  { unfold Zfloor. destruct (base_Int_part (65535 * ((0 + 1) / 2 - 0) / (1 - 0))) as [B1 B2].
    set (z := Int_part _) in *. clearbody z.
    assert (32766 < z < 32768)%Z; [|lia]. split; apply lt_IZR; lra. }
  assert (Hz : Reqb (1 - 0) 0 = false) by (apply Reqb_false; lra).
  rewrite Hz, Hf. simpl. split; discriminate.
Qed.

(** ** C06 *)
Theorem C06_sort (O : OrdOps) (NodeSize fuel left right : nat)
    (values : list N) (boxes : list (option box)) (indices : list (option nat)) :
  1 <= NodeSize -> left <= right ->
  right < length values -> right < length boxes -> right < length indices ->
  right - left < fuel ->
  exists values' boxes' indices',
    sort fuel NodeSize (mkSort values boxes indices) left right
    = Ok (mkSort values' boxes' indices') /\
    (exists f : nat -> nat,
       Injective f /\
       (forall i, left <= i <= right -> left <= f i <= right) /\
       (forall i, ~ (left <= i <= right) -> f i = i) /\
       (forall i, nth_error values' i = nth_error values (f i)) /\
       (forall i, nth_error boxes' i = nth_error boxes (f i)) /\
       (forall i, nth_error indices' i = nth_error indices (f i))) /\
    (forall a b, left <= a <= right -> left <= b <= right ->
       a / NodeSize < b / NodeSize -> (nth a values' 0 <= nth b values' 0)%N).
Proof.
  intros HN Hlr H1 H2 H3 Hf.
  destruct (sort_spec NodeSize ltac:(lia) fuel (mkSort values boxes indices) left right)
    as (s & E & _ & R & B); auto.
  { repeat split; auto. }
  destruct s as [v b i]. exists v, b, i. split; [exact E|]. split; [exact R|exact B].
Qed.

(** ** C08 *)
(** a finite rectangle with min <= max *)
Definition properBox (b : @box ROrd) : Prop :=
  exists x0 y0 x1 y1 : R, b = @mkBox ROrd (Fin x0) (Fin y0) (Fin x1) (Fin y1) /\ (x0 <= x1)%R /\ (y0 <= y1)%R.

Lemma Rhil_in_range lo hi mn mx :
  (lo < hi)%R -> (lo <= mn)%R -> (mn <= mx)%R -> (mx <= hi)%R ->
  exists h, Rhil (Fin lo) (Fin hi) (Fin mn) (Fin mx) = Some h /\ (h <= 65535)%N.
Proof.
  intros H1 H2 H3 H4. unfold Rhil.
  assert (Hz : Reqb (hi - lo) 0 = false) by (apply Reqb_false; lra). rewrite Hz.
  set (v := (65535 * ((mn + mx) / 2 - lo) / (hi - lo))%R).
  assert (Hv : (0 <= v <= 65535)%R).
  { unfold v. split.
    - apply Rmult_le_pos; [nra|]. apply Rlt_le, Rinv_0_lt_compat. lra.
    - apply Rmult_le_reg_r with (hi - lo)%R; [lra|]. unfold Rdiv.
      rewrite Rmult_assoc, Rinv_l by lra. nra. }
  unfold Zfloor. destruct (base_Int_part v) as [B1 B2].
  assert (Z0 : (0 <= Int_part v)%Z).
  { assert (-1 < Int_part v)%Z; [|lia]. apply lt_IZR. simpl. lra. }
  assert (Z1 : (Int_part v <= 65535)%Z) by (apply le_IZR; simpl; lra).
  destruct (Z.leb_spec 0 (Int_part v)); [|lia].
  destruct (Z.ltb_spec (Int_part v) 4294967296); [|lia]. simpl.
  exists (Z.to_N (Int_part v)). split; auto. lia.
Qed.

Lemma fin_union (bs : list (@box ROrd)) : Forall properBox bs -> bs <> [] ->
  exists x0 y0 x1 y1, boxUnion bs = @mkBox ROrd (Fin x0) (Fin y0) (Fin x1) (Fin y1).
Proof.
  intros H Hne. destruct bs as [|b bs]; [congruence|].
  inversion H as [|? ? Hb Hbs]; subst. destruct Hb as (a0 & b0 & a1 & b1 & -> & _).
  unfold boxUnion. simpl fold_left.
  change (bu emptyBox (@mkBox ROrd (Fin a0) (Fin b0) (Fin a1) (Fin b1)))
    with (@mkBox ROrd (Fin a0) (Fin b0) (Fin a1) (Fin b1)).
  clear H Hne. revert a0 b0 a1 b1. induction bs as [|b bs IH]; intros; simpl; eauto.
  inversion Hbs as [|? ? Hb Hbs']; subst. destruct Hb as (c0 & d0 & c1 & d1 & -> & _).
  unfold bu at 2. simpl.
  destruct (Rltb c0 a0), (Rltb d0 b0), (Rltb a1 c1), (Rltb b1 d1); apply IH; auto.
Qed.

Lemma hilOk_proper (bs : list (@box ROrd)) : Forall properBox bs ->
  ext_ltb (bMinX (boxUnion bs)) (bMaxX (boxUnion bs)) = true ->
  ext_ltb (bMinY (boxUnion bs)) (bMaxY (boxUnion bs)) = true ->
  hilOk bs.
Proof.
  intros Hp Hw Hh b Hb.
  destruct (fin_union bs Hp) as (x0 & y0 & x1 & y1 & E). { intros ->. destruct Hb. }
  pose proof Hp as Hp'. rewrite Forall_forall in Hp'.
  destruct (Hp' b Hb) as (a0 & b0 & a1 & b1 & -> & Ha & Hb').
  assert (Hok : Forall (okBox (O := ROrd) (fun _ => True)) bs).
  { apply Forall_forall. intros; repeat split. }
  destruct (boxUnion_encl (O := ROrd) (fun _ => True) bs _ Hok Hb) as (E1 & E2 & E3 & E4).
  rewrite E in E1, E2, E3, E4, Hw, Hh |- *. simpl in E1, E2, E3, E4, Hw, Hh. apply Rltb_spec in Hw, Hh.
  apply Rltb_false in E1, E2, E3, E4.
  destruct (Rhil_in_range x0 x1 a0 a1) as (h & G1 & _); try lra.
  destruct (Rhil_in_range y0 y1 b0 b1) as (h' & G2 & _); try lra.
  split.
  - change (Rhil (Fin x0) (Fin x1) (Fin a0) (Fin a1) <> None). rewrite G1. discriminate.
  - change (Rhil (Fin y0) (Fin y1) (Fin b0) (Fin b1) <> None). rewrite G2. discriminate.
Qed.

(** With proper boxes and extents of positive width and height every cast is in range
    (0..65535), so building succeeds for any number of items up to 2^24. *)
Theorem C08_no_bad_cast (NodeSize : nat) (bs : list (@box ROrd)) :
  sizesOk NodeSize (length bs) -> Forall properBox bs ->
  (exists b b', In b bs /\ In b' bs /\ ext_ltb (bMinX b) (bMaxX b') = true) ->
  (exists b b', In b bs /\ In b' bs /\ ext_ltb (bMinY b) (bMaxY b') = true) ->
  exists ix, build NodeSize bs = Ok ix.
Proof.
  intros (HN & HN' & Hn & Hn') Hp (b & b' & Hb & Hb' & Hx) (d & d' & Hd & Hd' & Hy).
  assert (Hok : Forall (okBox (O := ROrd) (fun _ => True)) bs).
  { apply Forall_forall. intros; repeat split. }
  assert (Hne : bs <> []) by (intros ->; destruct Hb).
  destruct (fin_union bs Hp Hne) as (x0 & y0 & x1 & y1 & E).
  pose proof Hp as Hp'. rewrite Forall_forall in Hp'.
  pose proof (boxUnion_encl (O := ROrd) (fun _ => True) bs _ Hok Hb) as (A1 & _ & _ & _).
  pose proof (boxUnion_encl (O := ROrd) (fun _ => True) bs _ Hok Hb') as (_ & _ & A2 & _).
  pose proof (boxUnion_encl (O := ROrd) (fun _ => True) bs _ Hok Hd) as (_ & A3 & _ & _).
  pose proof (boxUnion_encl (O := ROrd) (fun _ => True) bs _ Hok Hd') as (_ & _ & _ & A4).
  destruct (Hp' b Hb) as (? & ? & ? & ? & -> & _). destruct (Hp' b' Hb') as (? & ? & ? & ? & -> & _).
  destruct (Hp' d Hd) as (? & ? & ? & ? & -> & _). destruct (Hp' d' Hd') as (? & ? & ? & ? & -> & _).
  rewrite E in *. simpl in *. rewrite ?Rltb_spec, ?Rltb_false in *.
  destruct (build_wf NodeSize bs Hn Hn' HN HN') as (L & ix & Ei & _); eauto.
  right. apply hilOk_proper; auto; rewrite E; simpl; apply Rltb_spec; lra.
Qed.

(** If all boxes are on one vertical line of zero thickness and do not fit in one node,
    building performs the undefined conversion. *)
Theorem C08_degenerate_is_UB (NodeSize : nat) (bs : list (@box ROrd)) (x : R) :
  sizesOk NodeSize (length bs) -> NodeSize < length bs -> Forall properBox bs ->
  (forall b, In b bs -> bMinX b = Fin x /\ bMaxX b = Fin x) ->
  build NodeSize bs = UB.
Proof.
  intros (HN & HN' & Hn & Hn') Hgt Hp Hx.
  assert (Hne : bs <> []) by (intros ->; simpl in Hn; lia).
  assert (Hu : bMinX (boxUnion bs) = Fin x /\ bMaxX (boxUnion bs) = Fin x).
  { destruct bs as [|b bs]; [congruence|]. unfold boxUnion. simpl fold_left.
    assert (G : forall (l : list (@box ROrd)) (a : @box ROrd), bMinX a = Fin x -> bMaxX a = Fin x ->
      (forall b, In b l -> bMinX b = Fin x /\ bMaxX b = Fin x) ->
      bMinX (fold_left bu l a) = Fin x /\ bMaxX (fold_left bu l a) = Fin x).
    { clear. induction l as [|b l IH]; intros a H1 H2 H; simpl; auto.
      destruct (H b (or_introl eq_refl)) as [H3 H4].
      apply IH; [| |intros; apply H; now right]; unfold bu; simpl; rewrite ?H1, ?H2, ?H3, ?H4;
      match goal with |- (if ?c then _ else _) = _ => destruct c end; auto. }
    destruct (Hx b (or_introl eq_refl)) as [H1 H2].
    apply G; simpl; rewrite ?H1, ?H2; auto. intros; apply Hx; now right. }
  set (n := length bs) in *.
  destruct (top_exists NodeSize HN n Hn) as (L & HL & HT & HNT).
  assert (FT : fTop NodeSize n L).
  { split; [lia|]. split; [rewrite fcnt_cnt; auto; lia|].
    intros k Hk. rewrite fcnt_cnt by lia. auto. }
  destruct (construct_spec (O := ROrd) NodeSize n L FT) as (lb & E & _ & _); [lia|].
  unfold build. fold n. rewrite E. cbn [bind].
  assert (Hge : n <= fstart NodeSize n (S L)).
  { clear. induction L; simpl in *; lia. }
  match goal with |- context [addAll ?i bs] => set (ix0 := i) end.
  destruct (addAll_spec bs ix0 0) as (bxs & ixs & E1 & _ & _ & _ & _ & A3 & _).
  { reflexivity. } { simpl. rewrite repeat_length. fold n. simpl in Hge. lia. }
  { simpl. rewrite repeat_length. fold n. simpl in Hge. lia. }
  change (mkBox (m_minX ix0) (m_minY ix0) (m_maxX ix0) (m_maxY ix0)) with (@emptyBox ROrd) in E1.
  fold (boxUnion bs) in E1. rewrite E1. cbn [bind]. clear E1. unfold finish.
  cbn [m_numItems m_indices m_boxes m_minX m_minY m_maxX m_maxY m_pos m_levelBounds m_numLevels m_numNodes].
  change (m_numItems ix0) with n.
  destruct (Nat.leb_spec n NodeSize); [lia|].
  destruct bs as [|b bs]; [congruence|].
  replace (seq 0 n) with (0 :: seq 1 (n - 1)).
  2:{ unfold n. simpl. now rewrite Nat.sub_0_r. }
  cbn [mmap]. specialize (A3 0 b eq_refl). change (0 + 0) with 0 in A3.
  unfold rgetI at 1. rewrite A3. cbn [bind].
  unfold hilbertValue at 1. cbn [m_minX m_maxX].
  destruct Hu as [Hu1 Hu2]. destruct (Hx b (or_introl eq_refl)) as [Hb1 Hb2].
  rewrite Hu1, Hu2, Hb1, Hb2. cbn [xhil ROrd]. unfold Rhil.
  assert (Hz : Reqb (x - x) 0 = true) by (apply Reqb_spec; lra). rewrite Hz. reflexivity.
Qed.

(** ** C01 over exact reals, with the hypotheses in plain terms *)
Corollary C01_query_exact_R (NodeSize : nat) (bs : list (@box ROrd)) :
  sizesOk NodeSize (length bs) -> Forall properBox bs ->
  (exists b b', In b bs /\ In b' bs /\ ext_ltb (bMinX b) (bMaxX b') = true) ->
  (exists b b', In b bs /\ In b' bs /\ ext_ltb (bMinY b) (bMaxY b') = true) ->
  exists ix, build NodeSize bs = Ok ix /\
    forall qx0 qy0 qx1 qy1 : R,
    exists l, query NodeSize ix (Fin qx0) (Fin qy0) (Fin qx1) (Fin qy1) [] = Ok l /\
      NoDup l /\
      (forall i, In i l <-> exists x0 y0 x1 y1 : R,
         nth_error bs i = Some (@mkBox ROrd (Fin x0) (Fin y0) (Fin x1) (Fin y1)) /\
         (x0 <= qx1)%R /\ (qx0 <= x1)%R /\ (y0 <= qy1)%R /\ (qy0 <= y1)%R).
Proof.
  intros Hs Hp Hx Hy.
  assert (Hok : Forall (okBox (O := ROrd) (fun _ => True)) bs).
  { apply Forall_forall. intros; repeat split. }
  assert (Hh : hilOk bs).
  { destruct Hx as (b & b' & Hb & Hb' & Hx), Hy as (d & d' & Hd & Hd' & Hy).
    assert (Hne : bs <> []) by (intros ->; destruct Hb).
    destruct (fin_union bs Hp Hne) as (x0 & y0 & x1 & y1 & E).
    pose proof Hp as Hp'. rewrite Forall_forall in Hp'.
    pose proof (boxUnion_encl (O := ROrd) (fun _ => True) bs _ Hok Hb) as (A1 & _ & _ & _).
    pose proof (boxUnion_encl (O := ROrd) (fun _ => True) bs _ Hok Hb') as (_ & _ & A2 & _).
    pose proof (boxUnion_encl (O := ROrd) (fun _ => True) bs _ Hok Hd) as (_ & A3 & _ & _).
    pose proof (boxUnion_encl (O := ROrd) (fun _ => True) bs _ Hok Hd') as (_ & _ & _ & A4).
    destruct (Hp' b Hb) as (? & ? & ? & ? & -> & _). destruct (Hp' b' Hb') as (? & ? & ? & ? & -> & _).
    destruct (Hp' d Hd) as (? & ? & ? & ? & -> & _). destruct (Hp' d' Hd') as (? & ? & ? & ? & -> & _).
    rewrite E in *. simpl in *. rewrite ?Rltb_spec, ?Rltb_false in *.
    apply hilOk_proper; auto; rewrite E; simpl; apply Rltb_spec; lra. }
  destruct (C01_query_exact ROrd _ ROrdLaws NodeSize bs Hs Hok (or_intror Hh)) as (ix & E & H).
  exists ix. split; [exact E|]. intros qx0 qy0 qx1 qy1.
  destruct (H (@mkBox ROrd (Fin qx0) (Fin qy0) (Fin qx1) (Fin qy1)) []) as (l & El & Hnd & Hi).
  { repeat split. }
  exists l. split; [exact El|]. split; [exact Hnd|]. intros i. rewrite Hi.
  split.
  - intros (b & Hb & Ho). rewrite Forall_forall in Hp.
    destruct (Hp b (nth_error_In _ _ Hb)) as (x0 & y0 & x1 & y1 & -> & _).
    exists x0, y0, x1, y1. split; auto. unfold overlap in Ho. simpl in Ho.
    rewrite !Rltb_false in Ho. tauto.
  - intros (x0 & y0 & x1 & y1 & Hb & Ho). eexists. split; [exact Hb|].
    unfold overlap. simpl. rewrite !Rltb_false. tauto.
Qed.

(** ** Non-vacuity: 40 unit squares on a diagonal satisfy every hypothesis above. *)
Example C01_hypotheses_met :
  let bs := map (fun i => @mkBox ROrd (Fin (INR i)) (Fin (INR i)) (Fin (INR i + 1)) (Fin (INR i + 1)))
              (seq 0 40) in
  sizesOk 16 (length bs) /\ 16 < length bs /\ Forall properBox bs /\
  (exists b b', In b bs /\ In b' bs /\ ext_ltb (bMinX b) (bMaxX b') = true) /\
  (exists b b', In b bs /\ In b' bs /\ ext_ltb (bMinY b) (bMaxY b') = true) /\ hilOk bs.
Proof.
  intros bs.
  assert (Hp : Forall properBox bs).
  { apply Forall_forall. intros b Hb. apply in_map_iff in Hb. destruct Hb as (i & <- & _).
    exists (INR i), (INR i), (INR i + 1)%R, (INR i + 1)%R. repeat split; lra. }
  assert (Hin : In (@mkBox ROrd (Fin (INR 0)) (Fin (INR 0)) (Fin (INR 0 + 1)) (Fin (INR 0 + 1))) bs).
  { now left. }
  assert (Hlt : Rltb (INR 0) (INR 0 + 1) = true) by (apply Rltb_spec; simpl; lra).
  assert (Hok : Forall (okBox (O := ROrd) (fun _ => True)) bs).
  { apply Forall_forall. intros; repeat split. }
  assert (Hl : length bs = 40) by (unfold bs; now rewrite map_length, seq_length).
  split; [rewrite Hl; unfold sizesOk; lia|]. split; [lia|]. split; [exact Hp|].
  split; [do 2 eexists; split; [exact Hin|]; split; [exact Hin|]; exact Hlt|].
  split; [do 2 eexists; split; [exact Hin|]; split; [exact Hin|]; exact Hlt|].
  destruct (fin_union bs Hp) as (x0 & y0 & x1 & y1 & E); [intros Hb; rewrite Hb in Hl; discriminate|].
  pose proof (boxUnion_encl (O := ROrd) (fun _ => True) bs _ Hok Hin) as (A1 & A2 & A3 & A4).
  rewrite E in A1, A2, A3, A4. simpl in A1, A2, A3, A4. apply Rltb_false in A1, A2, A3, A4.
  apply hilOk_proper; auto; rewrite E; simpl; apply Rltb_spec; lra.
Qed.
