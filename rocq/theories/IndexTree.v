(** * The finished spatial index is a well formed packed tree (used for C01-C05). *)
From Coq Require Import ZArith NArith List Bool Arith Lia FinFun Permutation.
From Verif Require Import Base Num SpatialIndex IndexSort Float32.
Import ListNotations.

(** ** Sizes of the levels of a packed tree *)

(** number of nodes of level [k] (level 0 = the items): each level groups the level
    below in blocks of [NodeSize] *)
Fixpoint cnt (NodeSize n k : nat) : nat :=
  match k with 0 => n | S k' => cdiv (cnt NodeSize n k') NodeSize end.

(** first cell of level [k] *)
Fixpoint start (NodeSize n k : nat) : nat :=
  match k with 0 => 0 | S k' => start NodeSize n k' + cnt NodeSize n k' end.

Lemma cdiv_le n ns : 1 <= n -> 1 <= ns -> 1 <= cdiv n ns <= n.
Proof.
  intros Hn Hs. unfold cdiv. split.
  - apply Nat.div_le_lower_bound; lia.
  - apply Nat.div_le_upper_bound; nia.
Qed.

Lemma cdiv_lt n ns : 2 <= n -> 2 <= ns -> cdiv n ns < n.
Proof. intros Hn Hs. unfold cdiv. apply Nat.div_lt_upper_bound; nia. Qed.

(** block arithmetic: [j] is a block iff [j * ns < n] *)
Lemma cdiv_spec n ns j : 1 <= ns -> j < cdiv n ns <-> j * ns < n.
Proof.
  intros Hs. unfold cdiv.
  pose proof (Nat.mul_div_le (n + ns - 1) ns). 
  pose proof (Nat.mul_succ_div_gt (n + ns - 1) ns). 
  split; intros; nia.
Qed.

Lemma cdiv_one n ns : 1 <= n <= ns -> cdiv n ns = 1.
Proof.
  intros H. assert (0 < cdiv n ns) by (apply cdiv_spec; lia).
  assert (~ (1 < cdiv n ns)) by (rewrite cdiv_spec; lia). lia.
Qed.

Lemma cdiv_add n ns : 1 <= ns -> cdiv (n + ns) ns = S (cdiv n ns).
Proof.
  intros H. unfold cdiv. replace (n + ns + ns - 1) with (n + ns - 1 + 1 * ns) by lia.
  rewrite Nat.div_add by lia. lia.
Qed.

Lemma cdiv_0 ns : 1 <= ns -> cdiv 0 ns = 0.
Proof. intros. unfold cdiv. apply Nat.div_small. lia. Qed.

Lemma shr2_4 p : shr2 (4 * p) = p.
Proof. unfold shr2. rewrite Nat.mul_comm. now apply Nat.div_mul. Qed.

(** ** Order laws *)

(** The comparison [<] on coordinates, restricted to the values satisfying [ok]
    (not NaN), is a strict weak order with least/greatest element -inf/+inf. *)
Class OrdLaws {O : OrdOps} (ok : X -> Prop) : Prop := {
  ol_irrefl : forall a, ok a -> xltb a a = false;
  ol_asym : forall a b, ok a -> ok b -> xltb a b = true -> xltb b a = false;
  ol_ge_trans : forall a b c, ok a -> ok b -> ok c ->
    xltb a b = false -> xltb b c = false -> xltb a c = false;
  ol_inf : ok xinf;
  ol_ninf : ok xninf;
  ol_max : forall a, ok a -> xltb xinf a = false;
  ol_min : forall a, ok a -> xltb a xninf = false
}.

Section Tree.
Context {O : OrdOps}.

Definition emptyBox : box := mkBox xinf xinf xninf xninf.

(** smallest box containing two boxes, with the tie-breaking of the code *)
Definition bu (nb b : box) : box :=
  mkBox (if xltb (bMinX b) (bMinX nb) then bMinX b else bMinX nb)
        (if xltb (bMinY b) (bMinY nb) then bMinY b else bMinY nb)
        (if xltb (bMaxX nb) (bMaxX b) then bMaxX b else bMaxX nb)
        (if xltb (bMaxY nb) (bMaxY b) then bMaxY b else bMaxY nb).

Definition boxUnion (l : list box) : box := fold_left bu l emptyBox.

Definition getB (l : list (option box)) (i : nat) : box :=
  match nth_error l i with Some (Some b) => b | _ => emptyBox end.

Definition inited {A} (l : list (option A)) (w : nat) : Prop :=
  forall i, i < w -> exists b, nth_error l i = Some (Some b).

Lemma rgetI_getB l i w : inited l w -> i < w -> rgetI l i = Ok (getB l i).
Proof. intros H Hi. destruct (H i Hi) as (b & E). unfold rgetI, getB. now rewrite E. Qed.

Lemma nth_getB l i w : inited l w -> i < w -> nth_error l i = Some (Some (getB l i)).
Proof. intros H Hi. destruct (H i Hi) as (b & E). unfold getB. now rewrite E. Qed.

Lemma inited_le {A} (l : list (option A)) w w' : inited l w -> w' <= w -> inited l w'.
Proof. intros H Hle i Hi. apply H. lia. Qed.

Lemma inited_len {A} (l : list (option A)) w : inited l w -> w <= length l.
Proof.
  intros H. destruct w; [lia|]. destruct (H w) as (b & E); [lia|].
  apply Nat.le_succ_l, nth_error_Some. congruence.
Qed.

Lemma nodeBox_loop_spec bxs e w : inited bxs w -> e <= w -> forall k p nb,
  p <= e ->
  let p' := Nat.min (p + k) e in
  nodeBox_loop k bxs (4 * p) (4 * e) nb
  = Ok (4 * p', fold_left bu (map (getB bxs) (seq p (p' - p))) nb).
Proof.
  intros Hin Hew. induction k; intros p nb Hp p'; subst p'.
  - simpl. replace (Nat.min (p + 0) e) with p by lia. replace (p - p) with 0 by lia. reflexivity.
  - cbn [nodeBox_loop]. destruct (Nat.ltb_spec (4 * p) (4 * e)).
    + rewrite shr2_4, (rgetI_getB _ _ w) by (auto; lia). cbn [bind].
      replace (4 * p + 4) with (4 * (p + 1)) by lia.
      rewrite IHk by lia. f_equal. f_equal; [lia|].
      replace (Nat.min (p + S k) e - p) with (S (Nat.min (p + 1 + k) e - (p + 1))) by lia.
      rewrite <- cons_seq. simpl. replace (p + 1) with (S p) by lia. reflexivity.
    + replace (Nat.min (p + S k) e) with p by lia. replace (p - p) with 0 by lia. reflexivity.
Qed.

Definition childRange (NodeSize c j : nat) : nat := Nat.min ((j + 1) * NodeSize) c - j * NodeSize.

(** nodes written by one level: [cn] nodes from cell [w], grouping [p..e) *)
Definition levelWritten NodeSize (bxs : list (option box)) (ixs : list (option nat)) (p c w cn : nat) : Prop :=
  forall j, j < cn ->
    nth_error ixs (w + j) = Some (Some (4 * (p + j * NodeSize))) /\
    nth_error bxs (w + j) =
      Some (Some (boxUnion (map (getB bxs) (seq (p + j * NodeSize) (childRange NodeSize c j))))).

Lemma getB_agree (b1 b2 : list (option box)) w :
  (forall i, i < w -> nth_error b2 i = nth_error b1 i) ->
  forall i, i < w -> getB b2 i = getB b1 i.
Proof. intros H i Hi. unfold getB. now rewrite H. Qed.

Lemma map_getB_agree b1 b2 w a k :
  (forall i, i < w -> nth_error b2 i = nth_error b1 i) -> a + k <= w ->
  map (getB b2) (seq a k) = map (getB b1) (seq a k).
Proof.
  intros H Hle. apply map_ext_in. intros i Hi. apply in_seq in Hi.
  apply (getB_agree _ _ w); auto. lia.
Qed.

Lemma level_loop_spec NodeSize e : 1 <= NodeSize -> forall fuel p w bxs ixs,
  inited bxs w -> p <= e -> e <= w -> length ixs = length bxs ->
  cdiv (e - p) NodeSize < fuel ->
  let cn := cdiv (e - p) NodeSize in
  (w + cn <= length bxs ->
   exists bxs' ixs',
     level_loop fuel NodeSize (4 * e) (mkBuild (4 * p) bxs ixs (4 * w))
     = Ok (mkBuild (4 * e) bxs' ixs' (4 * (w + cn))) /\
     length bxs' = length bxs /\ length ixs' = length bxs /\
     inited bxs' (w + cn) /\
     (forall i, i < w -> nth_error bxs' i = nth_error bxs i) /\
     (forall i, i < w -> nth_error ixs' i = nth_error ixs i) /\
     levelWritten NodeSize bxs' ixs' p (e - p) w cn) /\
  (length bxs < w + cn ->
   level_loop fuel NodeSize (4 * e) (mkBuild (4 * p) bxs ixs (4 * w)) = UB).
Proof.
  intros HN. induction fuel; intros p w bxs ixs Hin Hpe Hew Hlen Hf cn; [lia|]. subst cn.
  cbn [level_loop bsPos bsBoxes bsIndices bsMPos].
  destruct (Nat.ltb_spec (4 * p) (4 * e)).
  - rewrite (nodeBox_loop_spec bxs e w) by (auto; lia). cbn [bind].
    rewrite shr2_4.
    set (p' := Nat.min (p + NodeSize) e).
    set (nb := fold_left bu (map (getB bxs) (seq p (p' - p))) (mkBox xinf xinf xninf xninf)).
    assert (Hcn : cdiv (e - p) NodeSize = S (cdiv (e - p') NodeSize)).
    { destruct (le_dec (p + NodeSize) e).
      - unfold p'. rewrite Nat.min_l by lia.
        replace (e - p) with (e - (p + NodeSize) + NodeSize) by lia. now apply cdiv_add.
      - unfold p'. rewrite Nat.min_r by lia. rewrite Nat.sub_diag, cdiv_0 by lia.
        apply cdiv_one. lia. }
    pose proof (inited_len _ _ Hin) as Hwl.
    destruct (Nat.eq_dec w (length bxs)) as [Hw|Hw].
    { (* no room at all *)
      split; [lia|]. intros _. unfold rset.
      destruct (Nat.ltb_spec w (length ixs)); [lia|]. reflexivity. }
    rewrite (rset_ok ixs) by lia. cbn [bind]. rewrite (rset_ok bxs) by lia. cbn [bind].
    set (bxs1 := upd bxs w (Some nb)). set (ixs1 := upd ixs w (Some (4 * p))).
    assert (A1 : forall i, i < w -> nth_error bxs1 i = nth_error bxs i).
    { intros i Hi. apply nth_error_upd_ne. lia. }
    assert (I1 : inited bxs1 (w + 1)).
    { intros i Hi. destruct (Nat.eq_dec i w) as [->|].
      - exists nb. apply nth_error_upd_eq. lia.
      - rewrite A1 by lia. apply Hin. lia. }
    replace (4 * w + 4) with (4 * (w + 1)) by lia.
    destruct (IHfuel p' (w + 1) bxs1 ixs1) as [IH1 IH2]; auto; try lia.
    { unfold bxs1, ixs1. now rewrite !upd_length. }
    unfold bxs1 in IH1, IH2. rewrite upd_length in IH1, IH2. fold bxs1 in IH1, IH2.
    rewrite Hcn. split.
    + intros Hroom. destruct IH1 as (bxs' & ixs' & E & L1 & L2 & I' & AB & AI & LW); [lia|].
      exists bxs', ixs'. rewrite E. repeat split; auto.
      * f_equal. f_equal. lia.
      * intros i Hi. apply I'. lia.
      * intros i Hi. rewrite AB by lia. apply A1; auto.
      * intros i Hi. rewrite AI by lia. apply nth_error_upd_ne. lia.
      * destruct j as [|j].
        -- rewrite !Nat.add_0_r, AI by lia. unfold ixs1. rewrite nth_error_upd_eq by lia.
           reflexivity.
        -- destruct (LW j) as [LW1 _]; [lia|].
           replace (w + S j) with (w + 1 + j) by lia. rewrite LW1.
           assert (p' = p + NodeSize).
           { unfold p'. apply Nat.min_l. destruct (le_dec (p + NodeSize) e); auto.
             assert (cdiv (e - p') NodeSize = 0);
               [unfold p'; rewrite Nat.min_r, Nat.sub_diag by lia; apply cdiv_0; lia|lia]. }
           do 2 f_equal. lia.
      * destruct j as [|j].
        -- rewrite !Nat.add_0_r, AB by lia. unfold bxs1. rewrite nth_error_upd_eq by lia.
           do 2 f_equal. unfold nb, boxUnion, childRange.
           replace (p + 0 * NodeSize) with p by lia.
           replace (Nat.min ((0 + 1) * NodeSize) (e - p) - 0 * NodeSize) with (p' - p) by lia.
           unfold emptyBox. f_equal. symmetry. apply map_getB_agree with (w := w); [|lia].
           intros i Hi. rewrite AB by lia. apply A1. auto.
        -- destruct (LW j) as [_ LW2]; [lia|].
           replace (w + S j) with (w + 1 + j) by lia. rewrite LW2.
           assert (p' = p + NodeSize).
           { unfold p'. apply Nat.min_l. destruct (le_dec (p + NodeSize) e); auto.
             assert (cdiv (e - p') NodeSize = 0);
               [unfold p'; rewrite Nat.min_r, Nat.sub_diag by lia; apply cdiv_0; lia|lia]. }
           replace (p' + j * NodeSize) with (p + S j * NodeSize) by lia.
           replace (childRange NodeSize (e - p') j) with (childRange NodeSize (e - p) (S j));
             [reflexivity|].
           unfold childRange. replace (e - p) with (NodeSize + (e - p')) by lia.
           replace ((S j + 1) * NodeSize) with (NodeSize + (j + 1) * NodeSize) by lia.
           rewrite Nat.add_min_distr_l. lia.
    + intros Hroom. apply IH2. lia.
  - assert (p = e) by lia. subst p. rewrite Nat.sub_diag, cdiv_0 by lia. split.
    + intros _. exists bxs, ixs. repeat split; auto; try (rewrite Nat.add_0_r; auto).
      all: lia.
    + intros Hlt. pose proof (inited_len _ _ Hin). lia.
Qed.

(** ** Constructor *)

(** level sizes as computed by the constructor in single precision *)
Fixpoint fcnt (NodeSize n k : nat) : nat :=
  match k with 0 => n | S k' => ceilDivF (fcnt NodeSize n k') NodeSize end.
Fixpoint fstart (NodeSize n k : nat) : nat :=
  match k with 0 => 0 | S k' => fstart NodeSize n k' + fcnt NodeSize n k' end.

Definition fTop NodeSize n L : Prop :=
  1 <= L /\ fcnt NodeSize n L = 1 /\ (forall k, 1 <= k < L -> fcnt NodeSize n k <> 1).

Lemma computeNumLevels_loop_spec NodeSize n L : fTop NodeSize n L ->
  forall fuel k acc, k < L -> L - k <= fuel ->
  computeNumLevels_loop fuel NodeSize (fcnt NodeSize n k) acc = Ok (acc + (L - k)).
Proof.
  intros (HL & H1 & Hn). induction fuel; intros k acc Hk Hf; [lia|].
  cbn [computeNumLevels_loop].
  change (ceilDivF (fcnt NodeSize n k) NodeSize) with (fcnt NodeSize n (S k)).
  destruct (Nat.eq_dec (S k) L) as [E|Hne].
  - rewrite E, H1, Nat.eqb_refl. cbn [negb]. f_equal. lia.
  - destruct (Nat.eqb_spec (fcnt NodeSize n (S k)) 1) as [E|E].
    + exfalso. apply (Hn (S k)); [lia|auto].
    + cbn [negb]. rewrite IHfuel by lia. f_equal. lia.
Qed.

Lemma levelBounds_loop_spec NodeSize n L : fTop NodeSize n L ->
  forall fuel k lb, k < L -> L - k <= fuel -> length lb = S L ->
  (forall m, m <= k -> nth_error lb m = Some (Some (4 * fstart NodeSize n (S m)))) ->
  exists lb', levelBounds_loop fuel NodeSize (fcnt NodeSize n k) (fstart NodeSize n (S k)) (S k) lb
    = Ok (fstart NodeSize n (S L), lb') /\ length lb' = S L /\
    (forall m, m <= L -> nth_error lb' m = Some (Some (4 * fstart NodeSize n (S m)))).
Proof.
  intros (HL & H1 & Hn). induction fuel; intros k lb Hk Hf Hlen Hlb; [lia|].
  cbn [levelBounds_loop].
  change (ceilDivF (fcnt NodeSize n k) NodeSize) with (fcnt NodeSize n (S k)).
  change (fstart NodeSize n (S k) + fcnt NodeSize n (S k)) with (fstart NodeSize n (S (S k))).
  rewrite rset_ok by lia. cbn [bind].
  set (lb1 := upd lb (S k) (Some (fstart NodeSize n (S (S k)) * 4))).
  assert (L1 : length lb1 = S L) by (unfold lb1; now rewrite upd_length).
  assert (H2 : forall m, m <= S k -> nth_error lb1 m = Some (Some (4 * fstart NodeSize n (S m)))).
  { intros m Hm. unfold lb1. destruct (Nat.eq_dec m (S k)) as [->|].
    - rewrite nth_error_upd_eq by lia. do 2 f_equal. lia.
    - rewrite nth_error_upd_ne by lia. apply Hlb. lia. }
  destruct (Nat.eq_dec (S k) L) as [E|Hne].
  - rewrite E, H1. simpl negb. cbv iota. exists lb1. split; [reflexivity|].
    split; auto. intros m Hm. apply H2. lia.
  - destruct (Nat.eqb_spec (fcnt NodeSize n (S k)) 1) as [E|E].
    + exfalso. apply (Hn (S k)); [lia|auto].
    + cbn [negb]. replace (S k + 1) with (S (S k)) by lia. apply IHfuel; auto; lia.
Qed.

Lemma construct_spec NodeSize n L : fTop NodeSize n L -> L <= n + 2 ->
  exists lb, construct NodeSize n =
    Ok (mkIndex xinf xinf xninf xninf n (S L) lb (fstart NodeSize n (S L))
          (repeat None (fstart NodeSize n (S L))) (repeat None (fstart NodeSize n (S L))) 0) /\
    length lb = S L /\
    (forall m, m <= L -> nth_error lb m = Some (Some (4 * fstart NodeSize n (S m)))).
Proof.
  intros HT Hf. pose proof HT as (HL & _). unfold construct, computeNumLevels.
  assert (E0 : computeNumLevels_loop (n + 2) NodeSize n 1 = Ok (1 + (L - 0))).
  { apply (computeNumLevels_loop_spec NodeSize n L HT (n + 2) 0 1); lia. }
  rewrite E0. cbn [bind]. clear E0.
  replace (1 + (L - 0)) with (S L) by lia.
  rewrite rset_ok by (rewrite repeat_length; lia). cbn [bind].
  destruct (levelBounds_loop_spec NodeSize n L HT (n + 2) 0 (upd (repeat None (S L)) 0 (Some (n * 4))))
    as (lb & E & Hl & Hlb); try lia.
  - now rewrite upd_length, repeat_length.
  - intros m Hm. replace m with 0 by lia. simpl. do 2 f_equal. lia.
  - change (fcnt NodeSize n 0) with n in E. change (fstart NodeSize n 1) with n in E.
    rewrite E. cbn [bind]. exists lb. auto.
Qed.

(** ** add *)

Lemma fold_bu_empty (bs : list box) b0 :
  fold_left bu bs b0 =
  mkBox (bMinX (fold_left bu bs b0)) (bMinY (fold_left bu bs b0))
        (bMaxX (fold_left bu bs b0)) (bMaxY (fold_left bu bs b0)).
Proof. now destruct (fold_left bu bs b0). Qed.

Lemma addAll_spec (bs : list box) : forall ix p,
  m_pos ix = 4 * p ->
  p + length bs <= length (m_boxes ix) -> p + length bs <= length (m_indices ix) ->
  exists bxs ixs,
    let nb := fold_left bu bs (mkBox (m_minX ix) (m_minY ix) (m_maxX ix) (m_maxY ix)) in
    addAll ix bs =
      Ok (mkIndex (bMinX nb) (bMinY nb) (bMaxX nb) (bMaxY nb)
            (m_numItems ix) (m_numLevels ix) (m_levelBounds ix) (m_numNodes ix)
            bxs ixs (4 * (p + length bs))) /\
    length bxs = length (m_boxes ix) /\ length ixs = length (m_indices ix) /\
    (forall i, i < p -> nth_error bxs i = nth_error (m_boxes ix) i) /\
    (forall i, i < p -> nth_error ixs i = nth_error (m_indices ix) i) /\
    (forall i b, nth_error bs i = Some b -> nth_error bxs (p + i) = Some (Some b)) /\
    (forall i, i < length bs -> nth_error ixs (p + i) = Some (Some (p + i))).
Proof.
  induction bs as [|b bs IH]; intros ix p Hp Hb Hi.
  - exists (m_boxes ix), (m_indices ix). unfold addAll. cbn [mfold length fold_left bMinX bMinY bMaxX bMaxY].
    rewrite Nat.add_0_r, <- Hp.
    repeat split; auto.
    + now destruct ix.
    + intros [|i] b H; discriminate.
    + intros; lia.
  - change (addAll ix (b :: bs)) with
      (let! ix1 := add ix (bMinX b) (bMinY b) (bMaxX b) (bMaxY b) in addAll ix1 bs).
    unfold add. rewrite Hp, shr2_4. simpl in Hb, Hi.
    rewrite !rset_ok by lia. cbn [bind].
    match goal with |- context [addAll ?i bs] => set (ix1 := i) end.
    destruct (IH ix1 (p + 1)) as (bxs & ixs & E & L1 & L2 & A1 & A2 & A3 & A4).
    + simpl. lia.
    + simpl. rewrite upd_length. lia.
    + simpl. rewrite upd_length. lia.
    + exists bxs, ixs. cbv zeta. rewrite E.
      simpl in L1, L2. rewrite upd_length in L1. rewrite upd_length in L2.
      split; [|repeat split; auto].
      * simpl fold_left. unfold ix1 at 1 2 3 4. simpl m_numItems. 
        change (m_minX ix1) with (bMinX (bu (mkBox (m_minX ix) (m_minY ix) (m_maxX ix) (m_maxY ix)) b)).
        change (m_minY ix1) with (bMinY (bu (mkBox (m_minX ix) (m_minY ix) (m_maxX ix) (m_maxY ix)) b)).
        change (m_maxX ix1) with (bMaxX (bu (mkBox (m_minX ix) (m_minY ix) (m_maxX ix) (m_maxY ix)) b)).
        change (m_maxY ix1) with (bMaxY (bu (mkBox (m_minX ix) (m_minY ix) (m_maxX ix) (m_maxY ix)) b)).
        replace (4 * (p + 1 + length bs)) with (4 * (p + length (b :: bs))) by (simpl; lia).
        reflexivity.
      * intros i Hlt. rewrite A1 by lia. simpl. apply nth_error_upd_ne. lia.
      * intros i Hlt. rewrite A2 by lia. simpl. apply nth_error_upd_ne. lia.
      * intros [|i] b' Hi'.
        -- simpl in Hi'. injection Hi' as <-. rewrite A1 by lia. simpl.
           rewrite Nat.add_0_r, nth_error_upd_eq by lia. now destruct b.
        -- simpl in Hi'. replace (p + S i) with (p + 1 + i) by lia. now apply A3.
      * intros [|i] Hlt.
        -- rewrite A2 by lia. simpl. rewrite Nat.add_0_r. rewrite nth_error_upd_eq by lia. reflexivity.
        -- simpl in Hlt. replace (p + S i) with (p + 1 + i) by lia. apply A4. lia.
Qed.

(** ** Well formed finished index *)

Record wf (NodeSize : nat) (bs : list box) (L : nat) (ix : index) : Prop := {
  wf_bs : 1 <= length bs;
  wf_n : m_numItems ix = length bs;
  wf_L : 1 <= L;
  wf_levels : m_numLevels ix = S L;
  wf_top : cnt NodeSize (length bs) L = 1;
  wf_notop : forall k, 1 <= k < L -> cnt NodeSize (length bs) k <> 1;
  wf_lb : forall k, k <= L ->
    nth_error (m_levelBounds ix) k = Some (Some (4 * start NodeSize (length bs) (S k)));
  wf_nodes : m_numNodes ix = start NodeSize (length bs) (S L);
  wf_lenb : length (m_boxes ix) = m_numNodes ix;
  wf_leni : length (m_indices ix) = m_numNodes ix;
  wf_init : inited (m_boxes ix) (m_numNodes ix);
  wf_items : exists ids, Permutation ids (seq 0 (length bs)) /\
    (forall i k, nth_error ids i = Some k ->
       nth_error (m_indices ix) i = Some (Some k) /\
       exists b, nth_error bs k = Some b /\ nth_error (m_boxes ix) i = Some (Some b));
  wf_node : forall k, k < L ->
    levelWritten NodeSize (m_boxes ix) (m_indices ix) (start NodeSize (length bs) k)
      (cnt NodeSize (length bs) k) (start NodeSize (length bs) (S k)) (cnt NodeSize (length bs) (S k));
  wf_ext : mkBox (m_minX ix) (m_minY ix) (m_maxX ix) (m_maxY ix) = boxUnion bs;
  wf_pos : m_pos ix = 4 * m_numNodes ix
}.

Lemma start_mono NodeSize n k k' : k <= k' -> start NodeSize n k <= start NodeSize n k'.
Proof. induction 1; simpl; lia. Qed.

(** general statement about the level construction: levels [i..i+k) *)
Lemma levels_loop_spec NodeSize n lb L : 1 <= NodeSize ->
  (forall m, m <= L -> nth_error lb m = Some (Some (4 * start NodeSize n (S m)))) ->
  forall k i bxs ixs,
  i + k <= L ->
  length bxs = start NodeSize n (S L) -> length ixs = length bxs ->
  inited bxs (start NodeSize n (S i)) ->
  exists bxs' ixs',
    levels_loop k NodeSize lb i (mkBuild (4 * start NodeSize n i) bxs ixs (4 * start NodeSize n (S i)))
    = Ok (mkBuild (4 * start NodeSize n (i + k)) bxs' ixs' (4 * start NodeSize n (S (i + k)))) /\
    length bxs' = length bxs /\ length ixs' = length bxs /\
    inited bxs' (start NodeSize n (S (i + k))) /\
    (forall j, j < start NodeSize n (S i) -> nth_error bxs' j = nth_error bxs j) /\
    (forall j, j < start NodeSize n (S i) -> nth_error ixs' j = nth_error ixs j) /\
    (forall m, i <= m < i + k ->
       levelWritten NodeSize bxs' ixs' (start NodeSize n m) (cnt NodeSize n m)
         (start NodeSize n (S m)) (cnt NodeSize n (S m))).
Proof.
  intros HN Hlb. induction k; intros i bxs ixs HiL Hlen Hli Hin.
  - exists bxs, ixs. rewrite Nat.add_0_r in *. simpl levels_loop. repeat split; auto; lia.
  - cbn [levels_loop]. unfold rgetI at 1. rewrite Hlb by lia. cbn [bind bsBoxes].
    destruct (level_loop_spec NodeSize (start NodeSize n (S i)) HN (S (length bxs))
                (start NodeSize n i) (start NodeSize n (S i)) bxs ixs) as [H _]; auto.
    { simpl. lia. }
    { pose proof (start_mono NodeSize n (S i) (S L) ltac:(lia)).
      replace (start NodeSize n (S i) - start NodeSize n i) with (cnt NodeSize n i) by (simpl; lia).
      destruct (Nat.eq_dec (cnt NodeSize n i) 0) as [->|]; [rewrite cdiv_0; lia|].
      pose proof (cdiv_le (cnt NodeSize n i) NodeSize ltac:(lia) HN). simpl in *. lia. }
    replace (start NodeSize n (S i) - start NodeSize n i) with (cnt NodeSize n i) in H by (simpl; lia).
    change (cdiv (cnt NodeSize n i) NodeSize) with (cnt NodeSize n (S i)) in H.
    change (start NodeSize n (S i) + cnt NodeSize n (S i)) with (start NodeSize n (S (S i))) in H.
    destruct H as (bxs1 & ixs1 & E & L1 & L2 & I1 & A1 & A2 & W).
    { rewrite Hlen. apply start_mono. lia. }
    rewrite E. cbn [bind].
    destruct (IHk (i + 1) bxs1 ixs1) as (bxs2 & ixs2 & E2 & L3 & L4 & I2 & A3 & A4 & W2).
    + lia.
    + lia.
    + lia.
    + replace (S (i + 1)) with (S (S i)) by lia. auto.
    + replace (i + 1) with (S i) in * by lia.
      exists bxs2, ixs2. rewrite E2. replace (S i + k) with (i + S k) in * by lia.
      assert (Hss : start NodeSize n (S i) <= start NodeSize n (S (S i))) by (apply start_mono; lia).
      repeat split; auto; try lia.
      * intros j Hj. rewrite A3 by lia. auto.
      * intros j Hj. rewrite A4 by lia. auto.
      * destruct (Nat.eq_dec m i) as [->|].
        -- rewrite A4 by (cbn [start]; lia). now apply W.
        -- apply W2; lia.
      * destruct (Nat.eq_dec m i) as [->|].
        -- rewrite A3 by (cbn [start]; lia). destruct (W j) as [_ ->]; auto. do 3 f_equal.
           symmetry. apply map_getB_agree with (w := start NodeSize n (S i)).
           ++ intros j' Hj'. rewrite A3 by lia. reflexivity.
           ++ simpl. unfold childRange.
              assert (j * NodeSize < cnt NodeSize n i) by (apply cdiv_spec; auto).
              generalize dependent (cnt NodeSize n i). intros; lia.
        -- apply W2; lia.
Qed.

Lemma top_exists NodeSize : 2 <= NodeSize -> forall n, 1 <= n ->
  exists L, 1 <= L <= n /\ cnt NodeSize n L = 1 /\ (forall k, 1 <= k < L -> cnt NodeSize n k <> 1).
Proof.
  intros HN.
  assert (C : forall n k, cnt NodeSize n (S k) = cnt NodeSize (cdiv n NodeSize) k).
  { intros n. induction k; [reflexivity|]. cbn [cnt] in *. now rewrite <- IHk. }
  induction n as [n IH] using lt_wf_ind. intros Hn.
  destruct (Nat.eq_dec (cdiv n NodeSize) 1) as [E|E].
  - exists 1. split; [lia|]. split; [exact E|]. intros; lia.
  - assert (2 <= n).
    { destruct (Nat.eq_dec n 1) as [->|]; [|lia]. exfalso. apply E. apply cdiv_one. lia. }
    pose proof (cdiv_lt n NodeSize H HN). pose proof (cdiv_le n NodeSize ltac:(lia) ltac:(lia)).
    destruct (IH (cdiv n NodeSize)) as (L & HL & HC & HC'); try lia.
    exists (S L). split; [lia|]. rewrite C. split; auto.
    intros k Hk. destruct k; [lia|]. rewrite C. destruct k; [exact E|]. apply HC'. lia.
Qed.

Lemma cnt_le NodeSize n k : 1 <= NodeSize -> 1 <= n -> 1 <= cnt NodeSize n k <= n.
Proof.
  intros HN Hn. induction k; simpl; [lia|].
  pose proof (cdiv_le (cnt NodeSize n k) NodeSize ltac:(lia) HN). lia.
Qed.

Lemma fcnt_cnt NodeSize n k :
  1 <= n -> (Z.of_nat n <= 2 ^ 24)%Z -> 1 <= NodeSize -> (Z.of_nat NodeSize <= 65535)%Z ->
  fcnt NodeSize n k = cnt NodeSize n k.
Proof.
  intros H0 Hn HN HN'. induction k; simpl; auto. rewrite IHk.
  pose proof (cnt_le NodeSize n k HN H0). apply ceilDivF_exact; auto. lia.
Qed.

Lemma fstart_start NodeSize n k :
  1 <= n -> (Z.of_nat n <= 2 ^ 24)%Z -> 1 <= NodeSize -> (Z.of_nat NodeSize <= 65535)%Z ->
  fstart NodeSize n k = start NodeSize n k.
Proof.
  intros H0 Hn HN HN'. induction k; simpl; auto. rewrite IHk, fcnt_cnt; auto.
Qed.

(** Hilbert values of all items can be computed *)
Definition hilOk (bs : list box) : Prop :=
  let e := boxUnion bs in
  forall b, In b bs ->
    xhil (bMinX e) (bMaxX e) (bMinX b) (bMaxX b) <> None /\
    xhil (bMinY e) (bMaxY e) (bMinY b) (bMaxY b) <> None.

Lemma mmap_ok {A B} (f : A -> res B) l :
  (forall a, In a l -> exists b, f a = Ok b) ->
  exists bs, mmap f l = Ok bs /\ length bs = length l.
Proof.
  induction l as [|a l IH]; intros H; simpl.
  - exists []. auto.
  - destruct (H a) as (b & ->); [now left|]. simpl.
    destruct IH as (bs & -> & E); [intros; apply H; now right|]. simpl.
    exists (b :: bs). simpl. auto.
Qed.

Theorem build_wf NodeSize bs :
  1 <= length bs -> (Z.of_nat (length bs) <= 2 ^ 24)%Z ->
  2 <= NodeSize -> (Z.of_nat NodeSize <= 65535)%Z ->
  (length bs <= NodeSize \/ hilOk bs) ->
  exists L ix, build NodeSize bs = Ok ix /\ wf NodeSize bs L ix.
Proof.
  intros Hn Hn24 HN HN' Hh. set (n := length bs) in *.
  destruct (top_exists NodeSize HN n Hn) as (L & HL & HT & HNT).
  assert (FT : fTop NodeSize n L).
  { split; [lia|]. split; [rewrite fcnt_cnt; auto; lia|].
    intros k Hk. rewrite fcnt_cnt by lia. auto. }
  destruct (construct_spec NodeSize n L FT) as (lb & E & Hlb1 & Hlb2); [lia|].
  rewrite fstart_start in E by lia.
  assert (Hlb : forall m, m <= L -> nth_error lb m = Some (Some (4 * start NodeSize n (S m)))).
  { intros m Hm. rewrite Hlb2 by auto. rewrite fstart_start by lia. reflexivity. }
  clear Hlb2. unfold build. fold n. rewrite E. cbn [bind].
  set (N := start NodeSize n (S L)) in *.
  assert (HN1 : n + 1 <= N).
  { unfold N. apply Nat.le_trans with (start NodeSize n 2).
    - simpl. pose proof (cdiv_le n NodeSize Hn ltac:(lia)). lia.
    - apply start_mono. lia. }
  match goal with |- context [addAll ?i bs] => set (ix0 := i) end.
  destruct (addAll_spec bs ix0 0) as (bxs & ixs & E1 & L1 & L2 & _ & _ & A3 & A4).
  { reflexivity. } { simpl. rewrite repeat_length. fold n. lia. }
  { simpl. rewrite repeat_length. fold n. lia. }
  simpl Nat.add in *. fold n in E1, A4.
  change (mkBox (m_minX ix0) (m_minY ix0) (m_maxX ix0) (m_maxY ix0)) with emptyBox in E1.
  fold (boxUnion bs) in E1. simpl in L1, L2. rewrite repeat_length in L1, L2.
  rewrite E1. cbn [bind]. clear E1. unfold finish.
  cbn [m_numItems m_indices m_boxes m_minX m_minY m_maxX m_maxY m_pos m_levelBounds m_numLevels m_numNodes].
  change (m_numItems ix0) with n. change (m_levelBounds ix0) with lb.
  change (m_numLevels ix0) with (S L). change (m_numNodes ix0) with N.
  assert (In0 : inited bxs n).
  { intros i Hi. destruct (nth_error bs i) as [b|] eqn:Eb.
    - exists b. now apply A3.
    - apply nth_error_None in Eb. fold n in Eb. lia. }
  assert (Bx0 : map (getB bxs) (seq 0 n) = bs).
  { apply nth_error_ext. intros i.
    destruct (lt_dec i n).
    - rewrite nth_error_map, (nth_error_nth' _ 0) by (rewrite seq_length; auto).
      rewrite seq_nth by auto. simpl. unfold getB.
      destruct (nth_error bs i) as [b|] eqn:Eb.
      + now rewrite (A3 _ _ Eb).
      + apply nth_error_None in Eb. fold n in Eb. lia.
    - transitivity (@None box); [|symmetry]; apply nth_error_None.
      + rewrite map_length, seq_length. lia.
      + fold n. lia. }
  destruct (Nat.leb_spec n NodeSize) as [Hle|Hgt].
  - (* a single node *)
    assert (L = 1).
    { destruct (Nat.eq_dec L 1); auto. exfalso. apply (HNT 1); [lia|]. simpl. apply cdiv_one. lia. }
    subst L. assert (HNe : N = n + 1) by (unfold N; simpl; rewrite cdiv_one; lia).
    rewrite shr2_4. rewrite rset_ok by lia. cbn [bind]. rewrite rset_ok by lia. cbn [bind].
    exists 1. eexists. split; [reflexivity|]. constructor; fold n; cbn [m_numItems m_indices m_boxes m_minX m_minY m_maxX m_maxY m_pos m_levelBounds m_numLevels m_numNodes]; auto; try lia.
    + rewrite upd_length. auto.
    + rewrite upd_length. auto.
    + intros i Hi. destruct (Nat.eq_dec i n) as [->|].
      * eexists. apply nth_error_upd_eq. lia.
      * rewrite nth_error_upd_ne by lia. apply In0. lia.
    + exists (seq 0 n). split; [apply Permutation_refl|]. intros i k Hk.
      assert (Hi : i < n) by (rewrite <- (seq_length n 0); apply nth_error_Some; congruence).
      rewrite (nth_error_nth' _ 0), seq_nth in Hk by (try rewrite seq_length; auto).
      injection Hk as <-. simpl. rewrite !nth_error_upd_ne by lia.
      split; [now apply A4|]. destruct (nth_error bs i) as [b|] eqn:Eb.
      * exists b. split; auto.
      * apply nth_error_None in Eb. fold n in Eb. lia.
    + intros k Hk. replace k with 0 by lia. intros j Hj.
      simpl in Hj. rewrite cdiv_one in Hj by lia. replace j with 0 by lia.
      cbn [start cnt]. rewrite !Nat.add_0_r. cbn [Nat.add]. 
      rewrite !nth_error_upd_eq by lia. split; [reflexivity|].
      unfold childRange. replace (Nat.min ((0 + 1) * NodeSize) n - 0 * NodeSize) with n by lia.
      simpl (0 * NodeSize).
      rewrite (map_getB_agree bxs _ n 0 n), Bx0.
      * now destruct (boxUnion bs).
      * intros i Hi. apply nth_error_upd_ne. lia.
      * lia.
    + now destruct (boxUnion bs).
  - destruct Hh as [Hh|Hh]; [lia|].
    destruct (mmap_ok (fun i => let! b := rgetI bxs i in
        hilbertValue (mkIndex (bMinX (boxUnion bs)) (bMinY (boxUnion bs)) (bMaxX (boxUnion bs))
          (bMaxY (boxUnion bs)) n (S L) lb N bxs ixs (4 * n)) b) (seq 0 n)) as (hv & -> & Lhv).
    { intros i Hi. apply in_seq in Hi. rewrite (rgetI_getB _ _ n) by (auto; lia). cbn [bind].
      unfold hilbertValue. cbn [m_minX m_minY m_maxX m_maxY].
      assert (In (getB bxs i) bs).
      { rewrite <- Bx0. apply in_map, in_seq. lia. }
      destruct (Hh _ H) as [H1 H2].
      destruct (xhil (bMinX _) _ _ _); [|congruence].
      destruct (xhil (bMinY _) _ _ _); [|congruence]. simpl. eauto. }
    rewrite seq_length in Lhv. cbn [bind].
    destruct (sort_spec NodeSize ltac:(lia) (n + 1) (mkSort hv bxs ixs) 0 (n - 1))
      as (s & -> & (Ls1 & Ls2 & Ls3) & Re & _); try lia.
    { repeat split; simpl; lia. }
    simpl in Ls1, Ls2, Ls3. cbn [bind].
    destruct Re as (f & Fi & F1 & F2 & _ & F4 & F5). simpl in F4, F5.
    assert (In1 : inited (sBoxes s) n).
    { intros i Hi. rewrite F4. apply In0. specialize (F1 i). lia. }
    replace (S L - 1) with L by lia.
    destruct (levels_loop_spec NodeSize n lb L ltac:(lia) Hlb L 0 (sBoxes s) (sIndices s))
      as (bxs2 & ixs2 & E2 & L3 & L4 & I2 & A5 & A6 & W); auto; try lia.
    simpl start in E2. fold N in E2.
    change (4 * start NodeSize n 1) with (4 * n) in E2. simpl Nat.mul in E2 at 1.
    rewrite E2. cbn [bind]. exists L. eexists. split; [reflexivity|].
    constructor; fold n; cbn [m_numItems m_indices m_boxes m_minX m_minY m_maxX m_maxY m_pos m_levelBounds m_numLevels m_numNodes bsPos bsBoxes bsIndices bsMPos]; auto; try lia.
    + exists (map f (seq 0 n)). split.
      * apply NoDup_Permutation_bis.
        -- apply Injective_map_NoDup; auto. apply seq_NoDup.
        -- rewrite map_length. lia.
        -- intros x Hx. apply in_map_iff in Hx. destruct Hx as (i & <- & Hi).
           apply in_seq in Hi. apply in_seq. specialize (F1 i). lia.
      * intros i k Hk.
        assert (Hi : i < n).
        { rewrite <- (seq_length n 0), <- (map_length f). apply nth_error_Some. congruence. }
        rewrite nth_error_map, (nth_error_nth' _ 0), seq_nth in Hk
          by (try rewrite seq_length; auto).
        simpl in Hk. injection Hk as <-.
        specialize (F1 i ltac:(lia)).
        rewrite A5, A6 by (simpl; lia). rewrite F4, F5.
        split; [apply A4; lia|].
        destruct (nth_error bs (f i)) as [b|] eqn:Eb.
        -- exists b. split; auto.
        -- apply nth_error_None in Eb. fold n in Eb. lia.
    + intros k Hk. apply W. lia.
    + now destruct (boxUnion bs).
Qed.
End Tree.
