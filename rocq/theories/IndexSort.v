(** * Proofs about the partial quicksort of StaticSpatialIndex (C06). *)
From Coq Require Import ZArith NArith List Bool Arith Lia FinFun.
From Verif Require Import Base Num SpatialIndex.
Import ListNotations.

Section Sort.
Context {O : OrdOps}.

(** [s'] is [s] rearranged: one permutation [f], the same for the three arrays, that
    moves only cells of [left..right]. *)
Definition rearranged (left right : nat) (s s' : sortSt) : Prop :=
  exists f : nat -> nat,
    Injective f /\
    (forall i, left <= i <= right -> left <= f i <= right) /\
    (forall i, ~ (left <= i <= right) -> f i = i) /\
    (forall i, nth_error (sValues s') i = nth_error (sValues s) (f i)) /\
    (forall i, nth_error (sBoxes s') i = nth_error (sBoxes s) (f i)) /\
    (forall i, nth_error (sIndices s') i = nth_error (sIndices s) (f i)).

Definition lens (s s' : sortSt) : Prop :=
  length (sValues s') = length (sValues s) /\
  length (sBoxes s') = length (sBoxes s) /\
  length (sIndices s') = length (sIndices s).

Lemma rearranged_refl l r s : rearranged l r s s.
Proof. exists (fun i => i). repeat split; auto; try lia. intros a b; auto. Qed.

Lemma rearranged_trans l r s1 s2 s3 :
  rearranged l r s1 s2 -> rearranged l r s2 s3 -> rearranged l r s1 s3.
Proof.
  intros (f & Hf1 & Hf2 & Hf3 & Hf4 & Hf5 & Hf6) (g & Hg1 & Hg2 & Hg3 & Hg4 & Hg5 & Hg6).
  exists (fun i => f (g i)). repeat split.
  - intros a b H. apply Hf1 in H. now apply Hg1.
  - apply Hf2, Hg2; auto.
  - apply Hf2, Hg2; auto.
  - intros i H. rewrite (Hg3 i H). now apply Hf3.
  - intros i. now rewrite Hg4, Hf4.
  - intros i. now rewrite Hg5, Hf5.
  - intros i. now rewrite Hg6, Hf6.
Qed.

Lemma rearranged_weaken l r l' r' s s' :
  rearranged l r s s' -> l' <= l -> r <= r' -> rearranged l' r' s s'.
Proof.
  intros (f & Hf1 & Hf2 & Hf3 & Hf4) Hl Hr.
  exists f. split; auto. split; [|split; auto].
  - intros i Hi. destruct (le_dec l i); [destruct (le_dec i r)|].
    + specialize (Hf2 i). lia.
    + rewrite Hf3; lia.
    + rewrite Hf3; lia.
  - intros i Hi. apply Hf3. lia.
Qed.

Lemma lens_refl s : lens s s. Proof. repeat split. Qed.
Lemma lens_trans a b c : lens a b -> lens b c -> lens a c.
Proof. unfold lens. intuition congruence. Qed.

Definition swapf (i j k : nat) : nat :=
  if k =? i then j else if k =? j then i else k.

Lemma swapf_inj i j : Injective (swapf i j).
Proof.
  intros a b. unfold swapf.
  destruct (Nat.eqb_spec a i), (Nat.eqb_spec a j), (Nat.eqb_spec b i), (Nat.eqb_spec b j);
  subst; lia.
Qed.

Lemma upd2_swap {A} (l : list A) i j ai aj :
  nth_error l i = Some ai -> nth_error l j = Some aj ->
  forall k, nth_error (upd (upd l i aj) j ai) k = nth_error l (swapf i j k).
Proof.
  intros Hi Hj k. unfold swapf.
  assert (i < length l) by (apply nth_error_Some; congruence).
  assert (j < length l) by (apply nth_error_Some; congruence).
  destruct (Nat.eqb_spec k j).
  - subst k. rewrite nth_error_upd_eq by (now rewrite upd_length).
    destruct (Nat.eqb_spec j i); congruence.
  - rewrite nth_error_upd_ne by auto. destruct (Nat.eqb_spec k i).
    + subst k. rewrite nth_error_upd_eq; congruence.
    + rewrite nth_error_upd_ne by auto. reflexivity.
Qed.

(** enough room in the three arrays *)
Definition room (right : nat) (s : sortSt) : Prop :=
  right < length (sValues s) /\ right < length (sBoxes s) /\ right < length (sIndices s).

Lemma room_lens r s s' : room r s -> lens s s' -> room r s'.
Proof. unfold room, lens. intuition lia. Qed.

Lemma rget_ok {A} (l : list A) i : i < length l -> exists a, rget l i = Ok a /\ nth_error l i = Some a.
Proof.
  intros H. unfold rget. destruct (nth_error l i) eqn:E; eauto.
  apply nth_error_None in E. lia.
Qed.

Lemma swap_spec s i j left right :
  room right s -> left <= i <= right -> left <= j <= right ->
  exists s', swap s i j = Ok s' /\ lens s s' /\ rearranged left right s s' /\
    (forall k, nth_error (sValues s') k = nth_error (sValues s) (swapf i j k)).
Proof.
  intros (R1 & R2 & R3) Hi Hj. unfold swap.
  destruct (rget_ok (sValues s) i) as (vi & -> & Vi); [lia|].
  destruct (rget_ok (sValues s) j) as (vj & -> & Vj); [lia|]. simpl.
  rewrite rset_ok by lia. simpl. rewrite rset_ok by (rewrite upd_length; lia). simpl.
  destruct (rget_ok (sBoxes s) i) as (bi & -> & Bi); [lia|].
  destruct (rget_ok (sBoxes s) j) as (bj & -> & Bj); [lia|]. simpl.
  rewrite rset_ok by lia. simpl. rewrite rset_ok by (rewrite upd_length; lia). simpl.
  destruct (rget_ok (sIndices s) i) as (ei & -> & Ei); [lia|].
  destruct (rget_ok (sIndices s) j) as (ej & -> & Ej); [lia|]. simpl.
  rewrite rset_ok by lia. simpl. rewrite rset_ok by (rewrite upd_length; lia). simpl.
  eexists. split; [reflexivity|]. split; [|split].
  - repeat split; simpl; rewrite !upd_length; auto.
  - exists (swapf i j). repeat split; simpl.
    + apply swapf_inj.
    + unfold swapf. destruct (i0 =? i); [lia|]. destruct (i0 =? j); lia.
    + unfold swapf. destruct (i0 =? i); [lia|]. destruct (i0 =? j); lia.
    + unfold swapf. intros k Hk. destruct (Nat.eqb_spec k i); [lia|].
      destruct (Nat.eqb_spec k j); lia.
    + intros k. now apply upd2_swap.
    + intros k. now apply upd2_swap.
    + intros k. now apply upd2_swap.
  - simpl. intros k. now apply upd2_swap.
Qed.

Local Notation val s i := (nth i (sValues s) 0%N).

Lemma val_nth s i : i < length (sValues s) -> rget (sValues s) i = Ok (val s i).
Proof.
  intros H. destruct (rget_ok (sValues s) i H) as (a & -> & E).
  f_equal. symmetry. now apply nth_error_nth.
Qed.

Lemma val_swap s s' i j k :
  i < length (sValues s) -> j < length (sValues s) -> k < length (sValues s) ->
  (forall k, nth_error (sValues s') k = nth_error (sValues s) (swapf i j k)) ->
  val s' k = val s (swapf i j k).
Proof.
  intros Hi Hj Hk H.
  assert (swapf i j k < length (sValues s)) by
    (unfold swapf; destruct (k =? i), (k =? j); lia).
  specialize (H k). rewrite (nth_error_nth' _ 0%N H0) in H.
  now apply nth_error_nth with (d := 0%N) in H.
Qed.

Lemma scanUp_spec values pivot stop : forall fuel i,
  i <= stop -> stop < length values -> (pivot <= nth stop values 0%N)%N ->
  stop - i < fuel ->
  exists i', scanUp fuel values pivot i = Ok i' /\ i <= i' <= stop /\
    (forall k, i <= k < i' -> (nth k values 0 < pivot)%N) /\
    (pivot <= nth i' values 0%N)%N.
Proof.
  induction fuel; intros i Hi Hs Hp Hf; [lia|]. simpl.
  destruct (rget_ok values i) as (v & Hv & E); [lia|]. rewrite Hv. cbn [bind].
  apply nth_error_nth with (d := 0%N) in E.
  destruct (N.ltb_spec v pivot).
  - assert (i <> stop) by (intros ->; lia).
    destruct (IHfuel (i + 1)) as (i' & H1 & H2 & H3 & H4); try lia; auto.
    exists i'. repeat split; auto; try lia. intros k Hk.
    destruct (Nat.eq_dec k i); [subst k; rewrite E; auto|]. apply H3; lia.
  - exists i. repeat split; auto; try lia; intros; lia.
Qed.

Lemma scanDown_spec values pivot stop : forall fuel j,
  stop <= j -> j < length values -> (nth stop values 0 <= pivot)%N ->
  j - stop < fuel ->
  exists j', scanDown fuel values pivot j = Ok j' /\ stop <= j' <= j /\
    (forall k, j' < k <= j -> (pivot < nth k values 0)%N) /\
    (nth j' values 0 <= pivot)%N.
Proof.
  induction fuel; intros j Hj Hs Hp Hf; [lia|]. simpl.
  destruct (rget_ok values j) as (v & Hv & E); [lia|]. rewrite Hv. cbn [bind].
  apply nth_error_nth with (d := 0%N) in E.
  destruct (N.ltb_spec pivot v).
  - assert (j <> stop) by (intros ->; lia).
    destruct j as [|j]; [lia|].
    destruct (IHfuel j) as (j' & H1 & H2 & H3 & H4); try lia; auto.
    exists j'. repeat split; auto; try lia. intros k Hk.
    destruct (Nat.eq_dec k (S j)); [subst k; rewrite E; auto|]. apply H3; lia.
  - exists j. repeat split; auto; try lia; intros; lia.
Qed.

(** Hoare partition: sentinels [u] for the upward scan and [d] for the downward one. *)
Lemma partition_loop_spec left right pivot : forall fuel s i j u d,
  room right s -> left <= i -> j <= right -> i <= j + 1 ->
  i <= u <= right -> left <= d <= j ->
  (pivot <= val s u)%N -> (val s d <= pivot)%N ->
  (forall k, left <= k < i -> (val s k <= pivot)%N) ->
  (forall k, j < k <= right -> (pivot <= val s k)%N) ->
  (j < right \/ (u < right /\ u = d)) ->
  j - i < fuel ->
  exists j' s', partition_loop fuel pivot s i j = Ok (j', s') /\
    lens s s' /\ rearranged left right s s' /\ left <= j' < right /\
    (forall k, left <= k <= j' -> (val s' k <= pivot)%N) /\
    (forall k, j' < k <= right -> (pivot <= val s' k)%N).
Proof.
  induction fuel; intros s i j u d HR Hi Hj Hij Hu Hd Pu Pd Lo Hi' Hlt Hf; [lia|].
  pose proof HR as (HR1 & _ & _). cbn [partition_loop].
  destruct (scanUp_spec (sValues s) pivot u (S (length (sValues s))) i)
    as (i' & -> & Hi1 & Hi2 & Hi3); auto; try lia.
  cbn [bind].
  destruct (scanDown_spec (sValues s) pivot d (S (length (sValues s))) j)
    as (j' & -> & Hj1 & Hj2 & Hj3); auto; try lia.
  cbn [bind].
  destruct (Nat.leb_spec j' i').
  - exists j', s. split; [reflexivity|]. split; [apply lens_refl|].
    split; [apply rearranged_refl|]. split; [lia|]. split.
    + intros k Hk. destruct (Nat.eq_dec k j'); [subst; auto|].
      destruct (lt_dec k i); [apply Lo; lia|]. apply N.lt_le_incl, Hi2; lia.
    + intros k Hk. destruct (le_dec k j); [apply N.lt_le_incl, Hj2; lia|].
      apply Hi'; lia.
  - destruct (swap_spec s i' j' left right) as (s' & -> & L & Re & Sw); auto; try lia.
    cbn [bind]. destruct j' as [|j'']; [lia|].
    assert (Hlen : length (sValues s') = length (sValues s)) by apply L.
    assert (Vi : val s' i' = val s (S j'')).
    { rewrite (val_swap s s' i' (S j'')); auto; try lia.
      unfold swapf. now rewrite Nat.eqb_refl. }
    assert (Vj : val s' (S j'') = val s i').
    { rewrite (val_swap s s' i' (S j'')); auto; try lia.
      unfold swapf. rewrite Nat.eqb_refl. destruct (Nat.eqb_spec (S j'') i'); congruence. }
    assert (Vo : forall k, k < length (sValues s) -> k <> i' -> k <> S j'' -> val s' k = val s k).
    { intros k K1 K2 K3. rewrite (val_swap s s' i' (S j'')); auto; try lia.
      unfold swapf. apply Nat.eqb_neq in K2, K3. now rewrite K2, K3. }
    destruct (IHfuel s' (i' + 1) j'' (S j'') i') as (j3 & s3 & E & L3 & R3 & Hj4 & A & B);
      try lia.
    + eapply room_lens; eauto.
    + intros k Hk. destruct (Nat.eq_dec k i'); [subst; now rewrite Vi|].
      rewrite Vo by lia. destruct (lt_dec k i); [apply Lo; lia|].
      apply N.lt_le_incl, Hi2; lia.
    + intros k Hk. destruct (Nat.eq_dec k (S j'')); [subst; now rewrite Vj|].
      rewrite Vo by lia. destruct (le_dec k j); [apply N.lt_le_incl, Hj2; lia|].
      apply Hi'; lia.
    + exists j3, s3. repeat split; auto.
      all: try apply (lens_trans _ _ _ L L3); try lia.
      eapply rearranged_trans; eauto.
Qed.

(** items are ordered by Hilbert value between NodeSize buckets *)
Definition bucketSorted (NodeSize left right : nat) (values : list N) : Prop :=
  forall a b, left <= a <= right -> left <= b <= right ->
    a / NodeSize < b / NodeSize -> (nth a values 0 <= nth b values 0)%N.

Lemma rearranged_val_le l r s s' p :
  rearranged l r s s' -> r < length (sValues s) ->
  (forall k, l <= k <= r -> (val s k <= p)%N) -> forall k, l <= k <= r -> (val s' k <= p)%N.
Proof.
  intros (f & _ & Hf2 & _ & Hf4 & _) Hr H k Hk.
  specialize (Hf2 k Hk). specialize (Hf4 k).
  rewrite (nth_error_nth' (sValues s) 0%N (n := f k)) in Hf4 by lia.
  apply nth_error_nth with (d := 0%N) in Hf4. rewrite Hf4. auto.
Qed.

Lemma rearranged_val_ge l r s s' p :
  rearranged l r s s' -> r < length (sValues s) ->
  (forall k, l <= k <= r -> (p <= val s k)%N) -> forall k, l <= k <= r -> (p <= val s' k)%N.
Proof.
  intros (f & _ & Hf2 & _ & Hf4 & _) Hr H k Hk.
  specialize (Hf2 k Hk). specialize (Hf4 k).
  rewrite (nth_error_nth' (sValues s) 0%N (n := f k)) in Hf4 by lia.
  apply nth_error_nth with (d := 0%N) in Hf4. rewrite Hf4. auto.
Qed.

Lemma rearranged_out l r s s' k :
  rearranged l r s s' -> ~ (l <= k <= r) -> val s' k = val s k.
Proof.
  intros (f & _ & _ & Hf3 & Hf4 & _) Hk. specialize (Hf4 k). rewrite (Hf3 k Hk) in Hf4.
  destruct (nth_error (sValues s) k) eqn:E.
  - apply nth_error_nth with (d := 0%N) in E, Hf4. congruence.
  - apply nth_error_None in E, Hf4. rewrite !nth_overflow; auto.
Qed.

Theorem sort_spec NodeSize : NodeSize <> 0 -> forall fuel s left right,
  room right s -> left <= right -> right - left < fuel ->
  exists s', sort fuel NodeSize s left right = Ok s' /\ lens s s' /\
    rearranged left right s s' /\ bucketSorted NodeSize left right (sValues s').
Proof.
  intros HN. induction fuel; intros s left right HR Hlr Hf; [lia|]. cbn [sort].
  destruct (Nat.leb_spec (right / NodeSize) (left / NodeSize)).
  { exists s. repeat split; auto using rearranged_refl. intros a b Ha Hb Hab.
    exfalso. assert (b / NodeSize <= right / NodeSize) by (apply Nat.div_le_mono; lia).
    assert (left / NodeSize <= a / NodeSize) by (apply Nat.div_le_mono; lia). lia. }
  assert (left < right).
  { destruct (Nat.eq_dec left right); [subst; lia|lia]. }
  set (mid := Nat.div2 (left + right)).
  assert (Hmid : left <= mid < right).
  { unfold mid. rewrite Nat.div2_div. split.
    - apply Nat.div_le_lower_bound; lia.
    - apply Nat.div_lt_upper_bound; lia. }
  pose proof HR as (HR1 & _).
  rewrite (val_nth s mid) by lia. cbn [bind].
  destruct (partition_loop_spec left right (val s mid) (S (right - left)) s left right mid mid)
    as (j & s1 & E1 & L1 & R1 & Hj & A & B); try lia; auto.
  all: try (intros; lia). all: try apply N.le_refl.
  rewrite E1. cbn [bind].
  destruct (IHfuel s1 left j) as (s2 & E2 & L2 & R2 & S2); try lia.
  { destruct HR as (? & ? & ?), L1 as (Q1 & Q2 & Q3). unfold room. rewrite Q1, Q2, Q3.
    repeat split; lia. }
  rewrite E2. cbn [bind].
  destruct (IHfuel s2 (j + 1) right) as (s3 & E3 & L3 & R3 & S3); try lia.
  { eapply room_lens; [|eassumption]. eapply room_lens; eassumption. }
  rewrite E3. exists s3. split; [reflexivity|].
  assert (Hl1 : length (sValues s1) = length (sValues s)) by apply L1.
  assert (Hl2 : length (sValues s2) = length (sValues s)) by (rewrite <- Hl1; apply L2).
  split; [|split].
  - eauto using lens_trans.
  - eapply rearranged_trans; [exact R1|].
    eapply rearranged_trans; eapply rearranged_weaken; eauto; lia.
  - intros a b Ha Hb Hab.
    assert (a < b).
    { destruct (le_lt_dec b a); auto. apply (Nat.div_le_mono _ _ NodeSize) in l; lia. }
    assert (A2 : forall k, left <= k <= j -> (val s2 k <= val s mid)%N).
    { apply (rearranged_val_le _ _ s1); auto. lia. }
    assert (B2 : forall k, j + 1 <= k <= right -> (val s mid <= val s2 k)%N).
    { intros k Hk. rewrite (rearranged_out left j s1 s2) by (auto; lia). apply B; lia. }
    assert (B3 : forall k, j + 1 <= k <= right -> (val s mid <= val s3 k)%N).
    { apply (rearranged_val_ge _ _ s2); auto. lia. }
    destruct (le_dec b j).
    + rewrite !(rearranged_out (j+1) right s2 s3) by (auto; lia). apply S2; lia.
    + destruct (le_dec a j).
      * rewrite (rearranged_out (j+1) right s2 s3 a) by (auto; lia).
        eapply N.le_trans; [apply A2|apply B3]; lia.
      * apply S3; lia.
Qed.
End Sort.
