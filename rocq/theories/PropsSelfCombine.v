(** * C36: combining a polyline with itself *)
From Coq Require Import ZArith Reals Lra Lia List Bool Arith Permutation Sorted.
From Verif Require Import Base Num MathUtils PlineSegment SpatialIndex Polyline Intersects Combine RGeom Spec PropsMath ArcGeom Polar PropsSegment PropsClosest PropsIntr PropsPlineIntr PropsPolyline PropsExtents PropsPlineIndex PropsFindIntr StdLaws PropsCoincident PropsSlices PropsStitch PropsCombine.
Import ListNotations.
Open Scope R_scope.

(** a segment long enough to count as one: a line whose ends differ by 1e-8 in a coordinate, or an arc of at most a half circle *)
Definition realSeg (v1 v2 : vertex) : Prop := (isLine v1 /\ fuzzyEqual (pos v1) (pos v2) eps = false) \/ okArc v1 v2.

Lemma aws_self A s T0 : (s = 1 \/ s = -1) -> 0 < T0 <= PI -> angleIsWithinSweep A (s * T0) A eps = true /\ angleIsWithinSweep A (s * T0) (A + s * T0) eps = true.
Proof.
  intros Hs HT. pose proof eps_pos. pose proof PI_RGT_0. rewrite !aws_unfold by auto.
  assert (N0 : normalizeRadians 0 = 0) by (destruct (C09_normalizeRadians 0) as (_ & _ & N & _); apply N; lra).
  assert (N1 : normalizeRadians T0 = T0) by (destruct (C09_normalizeRadians T0) as (_ & _ & N & _); apply N; lra).
  destruct Hs as [-> | ->].
  - destruct (Rlt_dec 0 1); [|lra]. replace (A - A) with 0 by ring. replace (A + 1 * T0 - A) with T0 by ring. rewrite N0, N1. split; apply Rltb_spec; lra.
  - destruct (Rlt_dec 0 (-1)); [lra|]. replace (A - (A - T0)) with T0 by ring. replace (A + -1 * T0 - (A - T0)) with 0 by ring. rewrite N0, N1. split; apply Rltb_spec; lra.
Qed.

(** a segment overlaps itself from its start to its end *)
Lemma self_overlap v1 v2 : realSeg v1 v2 -> overlapsOf v1 v2 v1 v2 = [(pos v1, pos v2)].
Proof.
  intros [[L F]|Ok]; unfold overlapsOf.
  - rewrite intr_ll by auto. 
    assert (E : intrLineSeg2LineSeg2 (pos v1) (pos v2) (pos v1) (pos v2) = LLCoincident 0 1).
    { pose proof (C17_collinear (pos v1) (pos v2) (pos v1) (pos v2) 0 1) as H. pose proof eps_pos. assert (eps < 1) by (unfold eps; lra).
      specialize (H ltac:(apply vec_eq; cbn [vx vy lerp]; unfold lerp; cbn [vx vy]; rring) ltac:(apply vec_eq; unfold lerp; cbn [vx vy]; rring) F F).
      rewrite Rmin_left, Rmax_right in H by lra. destruct (intrLineSeg2LineSeg2 _ _ _ _) as [|p|t0 t1|].
      - destruct (H 0). lra.
      - destruct H as (t & _ & _ & _ & H). pose proof (H 0 ltac:(lra)). pose proof (H 1 ltac:(lra)). lra.
      - pose proof (proj1 (H 0) ltac:(lra)). pose proof (proj1 (H 1) ltac:(lra)). pose proof (proj2 (H t0) ltac:(lra)). pose proof (proj2 (H t1) ltac:(lra)).
        assert (t0 = 0) by lra. assert (t1 = 1) by lra. now subst.
      - destruct H. }
    rewrite E. unfold lerp. f_equal. f_equal; apply vec_eq; cbn [vx vy]; rring.
  - pose proof (okArc_sweep _ _ Ok) as HT. pose proof (okArc_sweep_eps _ _ Ok) as HT2. pose proof Ok as (L & Hb & Hne). pose proof (notLine_ne _ L) as Hb0. pose proof eps_pos as He. pose proof PI_RGT_0 as HP.
    unfold intrPlineSegs. rewrite (proj2 (bulgeIsZero_false _) L). cbn [andb].
    assert (E : intrCircle2Circle2 (radius (arcRadiusAndCenter v1 v2)) (center (arcRadiusAndCenter v1 v2)) (radius (arcRadiusAndCenter v1 v2)) (center (arcRadiusAndCenter v1 v2)) = CCCoincident).
    { apply C19_coincident_iff. rewrite (Rminus_diag_eq _ _ eq_refl), Rabs_R0. split; [|auto]. rewrite (dist_eq 0); [auto|lra|ring]. }
    rewrite E. clear E. unfold coincidentArcsIntr. rewrite eqb_reflx. unfold startAndSweepAngle. set (A := normalizeRadians _). rewrite thr_R. fold eps.
    set (s := if Rlt_dec 0 (bulge v1) then 1 else -1). set (T0 := Rabs (sweep (bulge v1))) in *.
    assert (Hs : s = 1 \/ s = -1) by (unfold s; destruct (Rlt_dec 0 (bulge v1)); auto).
    assert (ES : (t4 * tatan (bulge v1))%t = s * T0).
    { rcbn. change (4 * atan (bulge v1)) with (sweep (bulge v1)). unfold s, T0. destruct (Rlt_dec 0 (bulge v1)) as [P|P].
      - pose proof (sweep_pos _ P). rewrite Rabs_pos_eq by lra. ring.
      - assert (P' : bulge v1 < 0) by lra. pose proof (sweep_neg _ P'). rewrite Rabs_left by lra. ring. }
    rewrite ES. rcbn.
    assert (D : Rltb (Rabs (deltaAngle A (A + s * T0))) eps = false).
    { apply Rltb_false. destruct (C09_deltaAngle A (A + s * T0)) as (B1 & B2). replace (A + s * T0 - A) with (s * T0) in B2 by ring.
      destruct B2 as [k Hk]. destruct (Rle_lt_dec eps (Rabs (deltaAngle A (A + s * T0)))) as [|C]; [auto|]. exfalso. apply Rabs_def2 in C.
      assert (k = 0%Z).
      { assert (-1 < IZR k < 1); [|destruct H as [h1 h2]; apply lt_IZR in h1, h2; lia]. destruct Hs as [-> | ->]; split; nra. }
      subst k. destruct Hs as [-> | ->]; lra. }
    rewrite D. destruct (aws_self A s T0 Hs HT) as [-> ->]. reflexivity.
Qed.

Section Self.
Context {SL : StdLib} {SLaws : StdLaws SL}.

(** sorted lists of distinct numbers with the same elements are equal *)
Lemma sorted_unique l : forall l', StronglySorted le l -> StronglySorted le l' -> NoDup l -> Permutation l l' -> l = l'.
Proof.
  induction l as [|a l IH]; intros l' S S' N P; [apply Permutation_nil in P; congruence|].
  destruct l' as [|b l']; [symmetry in P; apply Permutation_nil in P; discriminate|].
  assert (a = b).
  { inversion S as [|? ? Sl Fa]. inversion S' as [|? ? Sl' Fb]. subst. rewrite List.Forall_forall in Fa, Fb.
    assert (In b (a :: l)) as [->|Hb] by (eapply Permutation_in; [symmetry; exact P|now left]); [reflexivity|].
    assert (In a (b :: l')) as [->|Ha] by (eapply Permutation_in; [exact P|now left]); [reflexivity|]. pose proof (Fa _ Hb). pose proof (Fb _ Ha). lia. }
  subst b. f_equal. inversion S. inversion S'. inversion N. subst. apply IH; auto. eapply Permutation_cons_inv, P.
Qed.

(** ** Specification *)
(** no two different segments overlap *)
Definition noSelfOverlap (A : polyline) : Prop := forall i j, (i < segCount A)%nat -> (j < segCount A)%nat -> i <> j ->
  overlapsOf (at_ A i) (at_ A (nextI A i)) (at_ A j) (at_ A (nextI A j)) = [].

(** the stretch along which segment i overlaps itself *)
Definition whole (A : polyline) (i : nat) : cIntr := mkCIntr i i (pos (at_ A i)) (pos (at_ A (nextI A i))).

Lemma fuzzy_refl (p : vec) e : 0 < e -> fuzzyEqual p p e = true.
Proof. intros H. apply fuzzyEqual_R. rewrite !Rminus_diag_eq, Rabs_R0 by reflexivity. auto. Qed.

(** the stretches found are exactly the segments *)
Lemma self_coincs A : indexable A -> isClosed A = true -> (forall i, (i < segCount A)%nat -> realSeg (at_ A i) (at_ A (nextI A i)) /\ Rabs (bulge (at_ A i)) <= 1) -> noSelfOverlap A ->
  exists ix intrs coincs, createApproxSpatialIndex A = Ok ix /\ findIntersects defaultNodeSize A A ix [] [] = Ok (intrs, coincs) /\
    Permutation coincs (map (whole A) (seq 0 (segCount A))).
Proof.
  intros HI HC HR HO. pose proof HI as (H2 & _).
  destruct (C30_find_intersects A A HI H2) as (ix & tested & intrs & coincs & Eix & Ef & Hnd & Ht & Ec & _).
  exists ix, intrs, coincs. split; [auto|]. split; [auto|]. 
  assert (Hp : forall i j, (i < segCount A)%nat -> (j < segCount A)%nat -> pairCoinc A A (i, j) = if (i =? j)%nat then [whole A i] else []).
  { intros i j Hi Hj. unfold pairCoinc. destruct (Nat.eqb_spec i j) as [->|N].
    - rewrite self_overlap by (apply HR; auto). reflexivity.
    - rewrite HO by auto. reflexivity. }
  assert (Hin : forall c, In c coincs <-> In c (map (whole A) (seq 0 (segCount A)))).
  { intros c. rewrite Ec, in_flat_map, in_map_iff. split.
    - intros ([i j] & Hij & Hc). apply Ht in Hij. destruct Hij as (Hi & Hj & _). rewrite Hp in Hc by auto. destruct (Nat.eqb_spec i j) as [->|]; [|destruct Hc].
      destruct Hc as [<-|[]]. exists j. split; [auto|]. apply in_seq. lia.
    - intros (i & <- & Hi). apply in_seq in Hi. exists (i, i). rewrite Ht, Hp, Nat.eqb_refl by lia. split; [|now left].
      split; [lia|]. split; [lia|]. destruct (sbox_ends (at_ A i) (at_ A (nextI A i))) as (B1 & B2). unfold boxesMeet, sbox. unfold inBox in *. lra. }
  apply NoDup_Permutation; [| |exact Hin].
  - rewrite Ec. clear -Hnd Hp Ht. assert (Hb : forall i j, In (i, j) tested -> (i < segCount A)%nat /\ (j < segCount A)%nat) by (intros i j H; apply Ht in H; tauto). clear Ht.
    induction tested as [|[i j] l IH]; [constructor|]. inversion Hnd. subst. cbn [flat_map]. 
    assert (Hl : NoDup (flat_map (pairCoinc A A) l)) by (apply IH; [auto|intros; apply Hb; now right]).
    destruct (Hb i j (or_introl eq_refl)) as [Hi Hj]. rewrite Hp by auto. destruct (Nat.eqb_spec i j) as [->|]; [|exact Hl]. cbn [app]. constructor; [|auto].
    rewrite in_flat_map. intros ([a b] & Hab & Hc). destruct (Hb a b (or_intror Hab)) as [Ha Hbb]. rewrite Hp in Hc by auto. destruct (Nat.eqb_spec a b) as [->|]; [|destruct Hc].
    destruct Hc as [Hc|[]]. unfold whole in Hc. injection Hc as E. subst. contradiction.
  - apply FinFun.Injective_map_NoDup; [|apply seq_NoDup]. intros i j E. unfold whole in E. now injection E.
Qed.

Lemma coincCmp_weak A : strictWeak (@coincCmp ROps A).
Proof.
  assert (G : forall a b, coincCmp A a b = true <-> (cIndex1 a < cIndex1 b)%nat \/ (cIndex1 a = cIndex1 b /\
     distSquared (pos (at_ A (cIndex1 a))) (cpoint1 a) < distSquared (pos (at_ A (cIndex1 b))) (cpoint1 b))).
  { intros a b. unfold coincCmp. destruct (Nat.eqb_spec (cIndex1 a) (cIndex1 b)) as [E|N]; cbn [negb].
    - rewrite E. rcbn. rewrite Rltb_spec. split; [auto|]. intros [H|[_ H]]; [lia|auto].
    - rewrite Nat.ltb_lt. split; [auto|]. intros [H|[H _]]; [auto|lia]. }
  assert (G' : forall a b, coincCmp A a b = false <-> ~ ((cIndex1 a < cIndex1 b)%nat \/ (cIndex1 a = cIndex1 b /\
     distSquared (pos (at_ A (cIndex1 a))) (cpoint1 a) < distSquared (pos (at_ A (cIndex1 b))) (cpoint1 b)))).
  { intros a b. rewrite <- G. split; [congruence|apply not_true_is_false]. }
  split.
  - intros a. apply G'. intros [H|[_ H]]; [lia|lra].
  - intros a b c. rewrite !G. intros [H|[H H']] [K|[K K']]; try (left; lia). right. split; [lia|lra].
  - intros a b c. rewrite !G'. intros H1 H2 H3 H4.
    assert (E1 : cIndex1 a = cIndex1 b) by (destruct (lt_eq_lt_dec (cIndex1 a) (cIndex1 b)) as [[?|?]|?]; tauto).
    assert (E2 : cIndex1 b = cIndex1 c) by (destruct (lt_eq_lt_dec (cIndex1 b) (cIndex1 c)) as [[?|?]|?]; tauto).
    assert (F1 := fun L => H1 (or_intror (conj E1 L))). assert (F2 := fun L => H2 (or_intror (conj (eq_sym E1) L))).
    assert (F3 := fun L => H3 (or_intror (conj E2 L))). assert (F4 := fun L => H4 (or_intror (conj (eq_sym E2) L))).
    split; intros [L|[_ L]]; try lia; lra.
Qed.

(** sorting puts them in path order *)
Lemma self_sorted A coincs : Permutation coincs (map (whole A) (seq 0 (segCount A))) ->
  std_sort (coincCmp A) (map (inOrder A) coincs) = map (whole A) (seq 0 (segCount A)).
Proof.
  intros P.
  assert (E0 : forall c, In c coincs -> inOrder A c = c).
  { intros c Hc. apply (Permutation_in _ P), in_map_iff in Hc. destruct Hc as (i & <- & _). unfold inOrder, whole. cbn [cIndex1 cpoint1 cpoint2].
    assert (@tltb ROps (distSquared (pos (at_ A i)) (pos (at_ A (nextI A i)))) (distSquared (pos (at_ A i)) (pos (at_ A i))) = false) as ->; [|reflexivity].
    unfold distSquared, dot, vsub. rcbn. apply Rltb_false. match goal with |- ?a <= ?b => replace a with 0 by ring; assert (0 <= b) by apply sumsq_nonneg; lra end. }
  assert (E1 : map (inOrder A) coincs = coincs) by (rewrite <- map_id; apply map_ext_in, E0). rewrite E1.
  pose proof (sort_perm _ (coincCmp A) coincs) as Ps. pose proof (sort_sorted _ (coincCmp A) coincs (coincCmp_weak A)) as Ss.
  set (l := std_sort (coincCmp A) coincs) in *. assert (Pl : Permutation l (map (whole A) (seq 0 (segCount A)))) by (etransitivity; eauto).
  assert (Hl : forall c, In c l -> c = whole A (cIndex1 c)).
  { intros c Hc. apply (Permutation_in _ Pl), in_map_iff in Hc. destruct Hc as (i & <- & _). reflexivity. }
  assert (Ei : map cIndex1 l = seq 0 (segCount A)).
  { symmetry. apply sorted_unique.
    - clear. generalize 0%nat. induction (segCount A) as [|n IH]; intros k; cbn [seq]; constructor; [apply IH|]. apply List.Forall_forall. intros x Hx. apply in_seq in Hx. lia.
    - clear -Ss. induction Ss as [|a l S IH F]; cbn [map]; constructor; [auto|]. rewrite List.Forall_forall in F |- *. intros x Hx. apply in_map_iff in Hx. destruct Hx as (b & <- & Hb).
      specialize (F b Hb). unfold coincCmp in F. destruct (Nat.eqb_spec (cIndex1 b) (cIndex1 a)); [lia|]. cbn [negb] in F. apply Nat.ltb_ge in F. exact F.
    - apply seq_NoDup.
    - symmetry. apply (Permutation_map cIndex1) in Pl. rewrite map_map in Pl. cbn [whole cIndex1] in Pl. rewrite map_id in Pl. exact Pl. }
  rewrite <- Ei, map_map. rewrite <- (map_id l) at 1. apply map_ext_in. exact Hl.
Qed.

Lemma split_start_pos (v1 v2 : vertex) : pos (splitVertex (splitAtPoint v1 v2 (pos v1))) = pos v1.
Proof. unfold splitAtPoint. destruct (bulgeIsZero v1); [reflexivity|]. rewrite (fuzzy_refl (pos v1)) by (rewrite prec_R; lra). rewrite orb_true_r. reflexivity. Qed.
Lemma split_end_pos (v1 v2 : vertex) : pos (splitVertex (splitAtPoint v1 v2 (pos v2))) = pos v2.
Proof. unfold splitAtPoint. destruct (bulgeIsZero v1); [reflexivity|]. destruct (_ || _); [reflexivity|]. destruct (fuzzyEqual _ _ _); reflexivity. Qed.

(** they are joined to one slice *)
Lemma self_join A : (2 <= length (vertexes A))%nat -> forall k m r curr b o, (k + m = length (vertexes A))%nat -> (0 < k)%nat -> csSlices r = [] -> csStarts r = [b] -> csEnds r = [] -> csOpposing r = [o] ->
  (forall v, lastVertex (mkPline false curr) = Ok v -> pos v = pos (at_ A (nextI A (k - 1)))) -> curr <> [] ->
  exists s e r', joinLoop A A (whole A (k - 1)) (map (whole A) (seq k m)) (r, curr) = Ok (r', []) /\ csSlices r' = [s] /\ csStarts r' = [b] /\ csEnds r' = [e] /\ csOpposing r' = [o] /\
    ipos e = pos (at_ A 0).
Proof.
  intros H2. intros k m. revert k. induction m as [|m IH]; intros k r curr b o Hk K0 Es Eb Ee Eo Hv Hn.
  - cbn [seq map joinLoop]. unfold endSlice. cbn [cIndex1 cIndex2 whole cpoint2]. rewrite vget_at by lia. cbn [bind]. do 3 eexists. split; [reflexivity|]. cbn [csSlices csStarts csEnds csOpposing].
    rewrite Es, Eb, Ee, Eo. cbn [app]. repeat (split; [reflexivity|]). cbn [ipos]. f_equal. f_equal. unfold nextI, nextWrappingIndex. assert (length (vertexes A) = k) as -> by lia. destruct (Nat.eqb_spec (S (k - 1)) k); lia.
  - cbn [seq map joinLoop]. unfold whole at 1 2 3. cbn [cIndex1 cIndex2 cpoint1 cpoint2]. unfold size. pose proof (next_lt k (length (vertexes A)) ltac:(lia)).
    rewrite !vget_at by lia. cbn [bind fst snd].
    destruct (exists_last Hn) as (l & x & ->). assert (El : lastVertex (mkPline false (l ++ [x])) = Ok x) by apply lastVertex_snoc. rewrite El. cbn [bind].
    assert (Ex : pos x = pos (at_ A k)). { rewrite (Hv x El). f_equal. f_equal. unfold nextI, nextWrappingIndex. destruct (Nat.eqb_spec (S (k - 1)) (length (vertexes A))); lia. }
    rewrite Ex, prec_R, fuzzy_refl by lra. unfold whole at 1. cbn [cpoint1 cpoint2 cIndex1].
    specialize (IH (S k)). replace (S k - 1)%nat with k in IH by lia. apply IH with (b := b) (o := o); auto; try lia.
    + intros v Hlv. rewrite removelast_app1 in Hlv. match type of Hlv with context [l ++ [?a; ?c]] => replace (l ++ [a; c]) with ((l ++ [a]) ++ [c]) in Hlv by (rewrite <- app_assoc; reflexivity) end.
      rewrite lastVertex_snoc in Hlv. injection Hlv as <-. apply split_end_pos.
    + rewrite removelast_app1. destruct l; discriminate.
Qed.
(** ** C36 *)
Theorem C36_self A mode : indexable A -> isClosed A = true ->
  (forall i, (i < segCount A)%nat -> realSeg (at_ A i) (at_ A (nextI A i)) /\ Rabs (bulge (at_ A i)) <= 1) -> noSelfOverlap A ->
  combinePolylines A A mode = Ok (match mode with Union | Intersect => mkComb [A] [] | Exclude | XOR => mkComb [] [] end).
Proof.
  intros HI HC HR HO. pose proof HI as (H2 & _). destruct (self_coincs A HI HC HR HO) as (ix & intrs & coincs & Eix & Ef & P).
  assert (Hn : segCount A = length (vertexes A)) by (rewrite segCount_eq by auto; rewrite HC; reflexivity).
  unfold combinePolylines. rewrite Eix. cbn [bind]. unfold processForCombine. rewrite Ef. cbn [bind].
  destruct coincs as [|c0 cs] eqn:Ec. { apply Permutation_nil in P. rewrite Hn in P. destruct (vertexes A); cbn in *; [lia|discriminate]. }
  rewrite <- Ec in *.
  assert (Ej : exists s b e o, sortAndjoinCoincidentSlices coincs A A = Ok (mkCS [s] [b] [e] [o]) /\ ipos b = pos (at_ A 0) /\ ipos e = pos (at_ A 0)).
  { unfold sortAndjoinCoincidentSlices. 
    assert (Em : mmap (orientCoinc A) coincs = Ok (map (inOrder A) coincs)).
    { assert (Hidx : forall c, In c coincs -> (cIndex1 c < length (vertexes A))%nat).
      { intros c Hc. apply (Permutation_in _ P), in_map_iff in Hc. destruct Hc as (i & <- & Hi). apply in_seq in Hi. cbn [whole cIndex1]. lia. }
      clear -Hidx. induction coincs as [|c l IH]; [reflexivity|]. cbn [mmap map]. unfold orientCoinc at 1. rewrite vget_at by (apply Hidx; now left). cbn [bind].
      rewrite IH by (intros; apply Hidx; now right). reflexivity. }
    rewrite Em. cbn [bind]. rewrite self_sorted by auto. rewrite Ec. rewrite Hn. destruct (length (vertexes A)) as [|n] eqn:En; [lia|]. cbn [seq map].
    assert (Es : exists r curr b o, startSlice A A (whole A 0) (mkCS [] [] [] [], []) = Ok (r, curr) /\ csSlices r = [] /\ csStarts r = [b] /\ csEnds r = [] /\ csOpposing r = [o] /\
       ipos b = pos (at_ A 0) /\ (forall v, lastVertex (mkPline false curr) = Ok v -> pos v = pos (at_ A (nextI A 0))) /\ curr <> []).
    { unfold startSlice, size. cbn [cIndex1 cIndex2 cpoint1 cpoint2 whole]. rewrite En. pose proof (next_lt 0 (S n) ltac:(lia)). rewrite !vget_at by lia. cbn [bind app].
      do 4 eexists. split; [reflexivity|]. cbn [csSlices csStarts csEnds csOpposing]. repeat (split; [reflexivity|]). cbn [ipos].
      split; [apply split_start_pos|]. split; [|discriminate]. intros v Hv. match type of Hv with context [[?a; ?b]] => change [a; b] with ([a] ++ [b]) in Hv end. rewrite lastVertex_snoc in Hv.
      injection Hv as <-. unfold nextI. rewrite En. apply split_end_pos. }
    destruct Es as (r & curr & b & o & -> & S1 & S2 & S3 & S4 & S5 & S6 & S7). cbn [bind].
    destruct (self_join A ltac:(lia) 1 n r curr b o ltac:(lia) ltac:(lia) S1 S2 S3 S4 S6 S7) as (s & e & r' & Ej & E1 & E2 & E3 & E4 & E5).
    cbn [Nat.sub] in Ej. rewrite Ej. cbn [bind]. unfold joinEnds. rewrite E1. cbn [length Nat.ltb Nat.leb]. exists s, b, e, o. split; [|auto]. destruct r' as [x1 x2 x3 x4]. cbn in E1, E2, E3, E4. now subst. }
  destruct Ej as (s & b & e & o & Ej & Eb & Ee).
  assert (Ev : vget A 0 = Ok (at_ A 0)) by (apply vget_at; lia). rewrite Ec. rewrite <- Ec. rewrite Ej. cbn [bind]. rewrite Ev. cbn [bind]. unfold completelyCoincident. cbn [ciStarts ciEnds csStarts csEnds]. rewrite Eb, Ee, prec_R, fuzzy_refl by lra.
  destruct mode; reflexivity.
Qed.
End Self.

(** non-vacuity: a triangle *)
Example C36_triangle : let A := mkPline true [mkVertex 0 0 0; mkVertex 2 0 0; mkVertex 0 2 0] in
  indexable A /\ isClosed A = true /\ (forall i, (i < segCount A)%nat -> realSeg (at_ A i) (at_ A (nextI A i)) /\ Rabs (bulge (at_ A i)) <= 1) /\ noSelfOverlap A.
Proof.
  intros A. split; [split; [cbn; lia|split; [cbn; lia|left; cbn; lia]]|]. split; [reflexivity|].
  assert (Hi : forall i, (i < segCount A)%nat -> i = 0%nat \/ i = 1%nat \/ i = 2%nat) by (intros i H; cbn in H; lia).
  assert (L : forall i, (i < segCount A)%nat -> isLine (at_ A i)) by (intros i H; destruct (Hi i H) as [->|[->| ->]]; unfold isLine; cbn; rewrite Rabs_R0; lra).
  split.
  - intros i H. split.
    + left. split; [auto|]. apply not_true_iff_false. rewrite fuzzyEqual_R. unfold eps.
      destruct (Hi i H) as [->|[->| ->]]; cbn; intros [H1 H2]; apply Rabs_def2 in H1, H2; lra.
    + destruct (Hi i H) as [->|[->| ->]]; cbn; rewrite Rabs_R0; lra.
  - intros i j H K N. unfold overlapsOf.
    pose proof (C20_line_line (at_ A i) (at_ A (nextI A i)) (at_ A j) (at_ A (nextI A j)) (L i H) (L j K)) as C.
    assert (Hc : eps < Rabs (cross (pos (at_ A i)) (pos (at_ A (nextI A i))) (pos (at_ A j)) (pos (at_ A (nextI A j))))).
    { unfold eps. destruct (Hi i H) as [->|[->| ->]]; destruct (Hi j K) as [->|[->| ->]]; try lia; unfold cross; cbn;
        match goal with |- _ < Rabs ?x => first [replace x with 4 by ring; rewrite Rabs_pos_eq by lra; lra | replace x with (-4) by ring; rewrite Rabs_left by lra; lra] end. }
    specialize (C Hc). cbv zeta in C. destruct C as [C _]. destruct (intrPlineSegs _ _ _ _); try reflexivity; destruct C.
Qed.
