(** * C07: hilbertXYToIndex is the position along the Hilbert curve *)
From Coq Require Import ZArith NArith List Bool Arith Lia Btauto.
From Verif Require Import Base Num SpatialIndex.
Import ListNotations.
Local Open Scope N_scope.

(** ** Specification: the Hilbert curve of order [n] on the 2^n x 2^n grid.
    The four quadrants are visited in the order (0,0), (0,1), (1,1), (1,0); the first copy of
    the smaller curve is mirrored at the diagonal, the last one at the anti-diagonal. *)
Fixpoint curve (n : nat) (d : N) : N * N :=
  match n with
  | O => (0, 0)
  | S m =>
      let s := 2 ^ N.of_nat m in
      let q := 4 ^ N.of_nat m in
      let '(x, y) := curve m (d mod q) in
      if d <? q then (y, x)
      else if d <? 2 * q then (x, y + s)
      else if d <? 3 * q then (x + s, y + s)
      else (s + (s - 1 - y), s - 1 - x)
  end.

(** inverse of [curve] (used only in the proof) *)
Fixpoint hilb (n : nat) (x y : N) : N :=
  match n with
  | O => 0
  | S m =>
      let s := 2 ^ N.of_nat m in
      let q := 4 ^ N.of_nat m in
      if x <? s then
        if y <? s then hilb m y x else q + hilb m x (y - s)
      else if y <? s then 3 * q + hilb m (s - 1 - y) (s - 1 - (x - s))
      else 2 * q + hilb m (x - s) (y - s)
  end.

Lemma pow2_S m : 2 ^ N.of_nat (S m) = 2 * 2 ^ N.of_nat m.
Proof. now rewrite Nat2N.inj_succ, N.pow_succ_r'. Qed.
Lemma pow4_S m : 4 ^ N.of_nat (S m) = 4 * 4 ^ N.of_nat m.
Proof. now rewrite Nat2N.inj_succ, N.pow_succ_r'. Qed.
Lemma pow2_pos m : 0 < 2 ^ N.of_nat m.
Proof. apply N.neq_0_lt_0, N.pow_nonzero. discriminate. Qed.
Lemma pow4_pos m : 0 < 4 ^ N.of_nat m.
Proof. apply N.neq_0_lt_0, N.pow_nonzero. discriminate. Qed.

Lemma curve_range n d : fst (curve n d) < 2 ^ N.of_nat n /\ snd (curve n d) < 2 ^ N.of_nat n.
Proof.
  revert d; induction n; intros d; [simpl; lia|].
  cbn [curve]. rewrite pow2_S.
  set (s := 2 ^ N.of_nat n) in *. set (q := 4 ^ N.of_nat n).
  specialize (IHn (d mod q)). destruct (curve n (d mod q)) as [x y]. cbn [fst snd] in IHn.
  repeat match goal with |- context [if ?c then _ else _] => destruct c end; cbn [fst snd]; lia.
Qed.

Lemma hilb_range n x y : hilb n x y < 4 ^ N.of_nat n.
Proof.
  revert x y; induction n; intros x y; [simpl; lia|].
  cbn [hilb]. rewrite pow4_S. set (s := 2 ^ N.of_nat n). set (q := 4 ^ N.of_nat n) in *.
  repeat match goal with |- context [if ?c then _ else _] => destruct c end;
  match goal with |- context [hilb n ?a ?b] => specialize (IHn a b) end; lia.
Qed.

Lemma mod_sub d q k : q <> 0 -> k * q <= d -> d < (k + 1) * q -> d mod q = d - k * q.
Proof.
  intros Hq H1 H2. symmetry. apply (N.mod_unique d q k); lia.
Qed.

Lemma hilb_curve n d : d < 4 ^ N.of_nat n -> hilb n (fst (curve n d)) (snd (curve n d)) = d.
Proof.
  revert d; induction n; intros d Hd; [simpl in *; lia|].
  rewrite pow4_S in Hd. cbn [curve].
  pose proof (curve_range n (d mod 4 ^ N.of_nat n)) as [R1 R2].
  pose proof (N.mod_lt d (4 ^ N.of_nat n) ltac:(pose proof (pow4_pos n); lia)) as Hm.
  specialize (IHn _ Hm).
  pose proof (pow4_pos n) as Hq. pose proof (pow2_pos n) as Hs.
  destruct (curve n (d mod 4 ^ N.of_nat n)) as [x y] eqn:E. cbn [fst snd] in *.
  set (s := 2 ^ N.of_nat n) in *. set (q := 4 ^ N.of_nat n) in *.
  destruct (N.ltb_spec d q); [|destruct (N.ltb_spec d (2 * q)); [|destruct (N.ltb_spec d (3 * q))]];
    cbn [fst snd hilb]; fold s q.
  - destruct (N.ltb_spec y s), (N.ltb_spec x s); try lia.
    rewrite IHn. rewrite N.mod_small; lia.
  - destruct (N.ltb_spec x s), (N.ltb_spec (y + s) s); try lia.
    replace (y + s - s) with y by lia. rewrite IHn, (mod_sub _ _ 1); lia.
  - destruct (N.ltb_spec (x + s) s), (N.ltb_spec (y + s) s); try lia.
    replace (y + s - s) with y by lia. replace (x + s - s) with x by lia.
    rewrite IHn, (mod_sub _ _ 2); lia.
  - destruct (N.ltb_spec (s + (s - 1 - y)) s), (N.ltb_spec (s - 1 - x) s); try lia.
    replace (s - 1 - (s - 1 - x)) with x by lia.
    replace (s - 1 - (s + (s - 1 - y) - s)) with y by lia.
    rewrite IHn, (mod_sub _ _ 3); lia.
Qed.

Lemma curve_hilb n x y : x < 2 ^ N.of_nat n -> y < 2 ^ N.of_nat n -> curve n (hilb n x y) = (x, y).
Proof.
  revert x y; induction n; intros x y Hx Hy.
  { simpl in *. f_equal; lia. }
  rewrite pow2_S in Hx, Hy. cbn [hilb curve].
  pose proof (pow4_pos n) as Hq. pose proof (pow2_pos n) as Hs.
  set (s := 2 ^ N.of_nat n) in *. 
  destruct (N.ltb_spec x s); destruct (N.ltb_spec y s);
  match goal with |- context [hilb n ?a ?b] =>
    pose proof (hilb_range n a b) as Hr; specialize (IHn a b ltac:(lia) ltac:(lia));
    set (h := hilb n a b) in * end; set (q := 4 ^ N.of_nat n) in *.
  - rewrite N.mod_small by lia. rewrite IHn. destruct (N.ltb_spec h q); [|lia]. reflexivity.
  - rewrite (mod_sub _ _ 1) by lia. replace (q + h - 1 * q) with h by lia. rewrite IHn.
    destruct (N.ltb_spec (q + h) q); [lia|]. destruct (N.ltb_spec (q + h) (2 * q)); [|lia].
    f_equal; lia.
  - rewrite (mod_sub _ _ 3) by lia. replace (3 * q + h - 3 * q) with h by lia. rewrite IHn.
    destruct (N.ltb_spec (3 * q + h) q); [lia|].
    destruct (N.ltb_spec (3 * q + h) (2 * q)); [lia|].
    destruct (N.ltb_spec (3 * q + h) (3 * q)); [lia|]. f_equal; lia.
  - rewrite (mod_sub _ _ 2) by lia. replace (2 * q + h - 2 * q) with h by lia. rewrite IHn.
    destruct (N.ltb_spec (2 * q + h) q); [lia|].
    destruct (N.ltb_spec (2 * q + h) (2 * q)); [lia|].
    destruct (N.ltb_spec (2 * q + h) (3 * q)); [|lia]. f_equal; lia.
Qed.

Lemma curve_first n : curve n 0 = (0, 0).
Proof.
  induction n; auto. cbn [curve]. pose proof (pow4_pos n).
  rewrite N.mod_small by lia. rewrite IHn. destruct (N.ltb_spec 0 (4 ^ N.of_nat n)); [auto|lia].
Qed.

Lemma curve_last n : curve n (4 ^ N.of_nat n - 1) = (2 ^ N.of_nat n - 1, 0).
Proof.
  induction n; auto. rewrite pow4_S, pow2_S. cbn [curve]. pose proof (pow4_pos n). pose proof (pow2_pos n).
  rewrite (mod_sub _ _ 3) by lia.
  replace (4 * 4 ^ N.of_nat n - 1 - 3 * 4 ^ N.of_nat n) with (4 ^ N.of_nat n - 1) by lia.
  rewrite IHn.
  repeat match goal with |- context [?a <? ?b] => destruct (N.ltb_spec a b); try lia end.
  f_equal; lia.
Qed.

(** Manhattan distance 1 *)
Definition adjacent (p p' : N * N) : Prop :=
  (fst p = fst p' /\ (snd p' = snd p + 1 \/ snd p = snd p' + 1)) \/
  (snd p = snd p' /\ (fst p' = fst p + 1 \/ fst p = fst p' + 1)).

Lemma curve_adjacent n d : d + 1 < 4 ^ N.of_nat n -> adjacent (curve n d) (curve n (d + 1)).
Proof.
  revert d; induction n; intros d Hd; [simpl in Hd; lia|].
  rewrite pow4_S in Hd. cbn [curve].
  pose proof (pow4_pos n) as Hq. pose proof (pow2_pos n) as Hs.
  pose proof (curve_first n) as CF. pose proof (curve_last n) as CL.
  set (s := 2 ^ N.of_nat n) in *. set (q := 4 ^ N.of_nat n) in *.
  assert (Hk : exists k r, d = k * q + r /\ r < q /\ k < 4).
  { exists (d / q), (d mod q). pose proof (N.div_mod d q ltac:(lia)). pose proof (N.mod_lt d q ltac:(lia)).
    repeat split; try lia. apply N.div_lt_upper_bound; lia. }
  destruct Hk as (k & r & -> & Hr & Hk).
  assert (M1 : (k * q + r) mod q = r) by (rewrite (mod_sub _ _ k); lia).
  rewrite M1. pose proof (curve_range n r) as [R1 R2]. fold s in R1, R2.
  destruct (N.eq_dec (r + 1) q) as [Eq|Ne].
  - assert (M2 : (k * q + r + 1) mod q = 0).
    { rewrite (mod_sub _ _ (k + 1)); lia. }
    rewrite M2, CF. replace r with (q - 1) by lia. rewrite CL.
    assert (k = 0 \/ k = 1 \/ k = 2) as [->|[->| ->]] by nia;
    repeat match goal with |- context [?a <? ?b] => destruct (N.ltb_spec a b); try lia end;
    unfold adjacent; cbn [fst snd]; lia.
  - assert (M2 : (k * q + r + 1) mod q = r + 1) by (rewrite (mod_sub _ _ k); lia).
    rewrite M2. specialize (IHn r ltac:(lia)).
    pose proof (curve_range n (r + 1)) as [R3 R4]. fold s in R3, R4.
    destruct (curve n r) as [x y], (curve n (r + 1)) as [x' y']. cbn [fst snd] in *.
    unfold adjacent in *. cbn [fst snd] in *.
    assert (k = 0 \/ k = 1 \/ k = 2 \/ k = 3) as [->|[->|[->| ->]]] by lia;
    repeat match goal with |- context [?a <? ?b] => destruct (N.ltb_spec a b); try lia end;
    cbn [fst snd]; lia.
Qed.

(** ** Bit-level view of the code: everything is a function bit position -> bool. *)
Definition bits := N -> bool.
Definition m16 : bits := fun i => i <? 16.

Lemma mask16 i : N.testbit 0xFFFF i = m16 i.
Proof.
  change 0xFFFF with (N.ones 16). unfold m16. destruct (N.ltb_spec i 16).
  - now apply N.ones_spec_low. - now apply N.ones_spec_high.
Qed.

Section Prefix.
Variables x y : bits.
Hypothesis Hx : forall i, 16 <= i -> x i = false.
Hypothesis Hy : forall i, 16 <= i -> y i = false.

Definition fa : bits := fun i => xorb (x i) (y i).
Definition fb : bits := fun i => xorb (m16 i) (fa i).
Definition fc : bits := fun i => xorb (m16 i) (x i || y i).
Definition fd : bits := fun i => x i && xorb (y i) (m16 i).

(** one step of the automaton at bit i: parity of "quadrant 0" and "quadrant 3" seen so far *)
Definition step (i : N) (s : bool * bool) : bool * bool :=
  (xorb (fc i) (xorb (fst s) (fb i && snd s)), xorb (fd i) (xorb (fa i && fst s) (snd s))).
Definition lin1 (i : N) (s : bool * bool) : bool * bool :=
  (xorb (fst s) (fb i && snd s), xorb (fa i && fst s) (snd s)).
Definition sx (s t : bool * bool) : bool * bool := (xorb (fst s) (fst t), xorb (snd s) (snd t)).

Fixpoint W (k : nat) (i : N) : bool * bool :=
  match k with O => (false, false) | S k' => step i (W k' (i + 1)) end.
Fixpoint L (k : nat) (i : N) (s : bool * bool) : bool * bool :=
  match k with O => s | S k' => lin1 i (L k' (i + 1) s) end.

Lemma W_add k l i : W (k + l) i = sx (W k i) (L k i (W l (i + N.of_nat k))).
Proof.
  revert i; induction k; intros i.
  - simpl. rewrite N.add_0_r. destruct (W l i) as [[] []]; reflexivity.
  - cbn [Nat.add W L]. rewrite IHk.
    replace (i + 1 + N.of_nat k) with (i + N.of_nat (S k)) by lia.
    destruct (W k (i + 1)) as [p q], (L k (i + 1) (W l (i + N.of_nat (S k)))) as [p' q'].
    unfold step, lin1, sx; simpl. f_equal; btauto.
Qed.

Lemma L_add k l i s : L (k + l) i s = L k i (L l (i + N.of_nat k) s).
Proof.
  revert i; induction k; intros i.
  - simpl. now rewrite N.add_0_r.
  - cbn [Nat.add L]. rewrite IHk. do 3 f_equal. lia.
Qed.

Lemma L_zero k i : L k i (false, false) = (false, false).
Proof.
  revert i; induction k; intros i; auto. cbn [L]. rewrite IHk. unfold lin1; simpl.
  now rewrite !andb_false_r.
Qed.

Lemma W_high k i : 16 <= i -> W k i = (false, false).
Proof.
  revert i; induction k; intros i Hi; auto. cbn [W]. rewrite IHk by lia.
  unfold step, fa, fb, fc, fd, fa. rewrite Hx, Hy by auto.
  assert (m16 i = false) as -> by (apply N.ltb_ge; auto). reflexivity.
Qed.

(** the matrices met after the first stage: a + b*w in the field with 4 elements *)
Definition G (a b : bool) (s : bool * bool) : bool * bool :=
  (xorb (a && fst s) (b && snd s), xorb (b && fst s) (xorb a b && snd s)).

Definition stageInv (w : nat) (A B C D : bits) : Prop :=
  (forall i, (C i, D i) = W w i) /\
  (forall i s, i + N.of_nat w <= 16 -> L w i s = G (A i) (B i) s).

Lemma stage_next w A B C D A' B' C' D' : stageInv w A B C D ->
  (forall i, C' i = xorb (C i) (xorb (A i && C (i + N.of_nat w)) (B i && D (i + N.of_nat w)))) ->
  (forall i, D' i = xorb (D i) (xorb (B i && C (i + N.of_nat w))
                                     (xorb (A i) (B i) && D (i + N.of_nat w)))) ->
  (forall i, A' i = xorb (A i && A (i + N.of_nat w)) (B i && B (i + N.of_nat w))) ->
  (forall i, B' i = xorb (A i && B (i + N.of_nat w))
                         (B i && xorb (A (i + N.of_nat w)) (B (i + N.of_nat w)))) ->
  stageInv (w + w) A' B' C' D'.
Proof.
  intros [H1 H2] EC ED EA EB. split.
  - intros i. rewrite W_add, <- !H1, EC, ED.
    destruct (N.le_gt_cases (i + N.of_nat w) 16) as [Hi|Hi].
    + rewrite H2 by auto. reflexivity.
    + assert (Z : (C (i + N.of_nat w), D (i + N.of_nat w)) = (false, false)).
      { rewrite H1. apply W_high. lia. }
      injection Z as -> ->. rewrite L_zero. unfold sx. simpl.
      rewrite !andb_false_r; simpl. now rewrite !xorb_false_r.
  - intros i s Hi. rewrite L_add, (H2 i), (H2 (i + N.of_nat w)) by lia. rewrite EA, EB.
    destruct s as [p q]. unfold G; simpl.
    generalize (A i) (B i) (A (i + N.of_nat w)) (B (i + N.of_nat w)). intros a b a' b'.
    f_equal; btauto.
Qed.

Definition A1 : bits := fun i => fa i || fb (i + 1).
Definition B1 : bits := fun i => xorb (fa (i + 1)) (fa i).
Definition C1 : bits := fun i => xorb (xorb (fc (i + 1)) (fb i && fd (i + 1))) (fc i).
Definition D1 : bits := fun i => xorb (xorb (fa i && fc (i + 1)) (fd (i + 1))) (fd i).

Lemma stage1 : stageInv 2 A1 B1 C1 D1.
Proof.
  split.
  - intros i. cbn [W]. unfold step; simpl. unfold C1, D1.
    f_equal; btauto.
  - intros i s Hi. cbn [L]. unfold lin1, G, A1, B1; simpl.
    assert (E0 : fb i = negb (fa i)).
    { unfold fb. assert (m16 i = true) as -> by (apply N.ltb_lt; lia). now destruct (fa i). }
    assert (E1 : fb (i + 1) = negb (fa (i + 1))).
    { unfold fb. assert (m16 (i + 1) = true) as -> by (apply N.ltb_lt; lia). now destruct (fa (i + 1)). }
    rewrite E0, E1. destruct s as [p q]; simpl. generalize (fa i) (fa (i + 1)). intros a a'.
    f_equal; btauto.
Qed.
End Prefix.

(** ** Numbers from bits *)
Fixpoint val (n : nat) (f : bits) : N :=
  match n with O => 0 | S m => N.b2n (f (N.of_nat m)) * 2 ^ N.of_nat m + val m f end.
Fixpoint dig (n : nat) (i1 i0 : bits) : N :=
  match n with
  | O => 0
  | S m => (2 * N.b2n (i1 (N.of_nat m)) + N.b2n (i0 (N.of_nat m))) * 4 ^ N.of_nat m + dig m i1 i0
  end.

Lemma val_lt n f : val n f < 2 ^ N.of_nat n.
Proof.
  induction n; [simpl; lia|]. cbn [val]. rewrite pow2_S.
  destruct (f (N.of_nat n)); cbn [N.b2n]; lia.
Qed.

Lemma val_ext n f g : (forall i, i < N.of_nat n -> f i = g i) -> val n f = val n g.
Proof.
  intros H. induction n; auto. cbn [val]. rewrite H by lia. rewrite IHn; auto.
  intros; apply H; lia.
Qed.

Lemma val_neg n f : 2 ^ N.of_nat n - 1 - val n f = val n (fun i => negb (f i)).
Proof.
  induction n; auto. cbn [val]. rewrite pow2_S, <- IHn. pose proof (val_lt n f). pose proof (pow2_pos n).
  destruct (f (N.of_nat n)); cbn [N.b2n negb]; lia.
Qed.

Lemma lt_of_bits n v : (forall j, n <= j -> N.testbit v j = false) -> v < 2 ^ n.
Proof.
  intros H. replace v with (v mod 2 ^ n).
  - apply N.mod_lt. apply N.pow_nonzero. discriminate.
  - apply N.bits_inj. intros j. destruct (N.lt_ge_cases j n).
    + now rewrite N.mod_pow2_bits_low. + rewrite N.mod_pow2_bits_high by auto. now rewrite H.
Qed.

Lemma bits_of_lt n v j : v < 2 ^ n -> n <= j -> N.testbit v j = false.
Proof.
  intros H Hj. rewrite <- (N.mod_small v (2 ^ n)) by auto. now apply N.mod_pow2_bits_high.
Qed.

Lemma val_bits n v : v < 2 ^ N.of_nat n -> v = val n (N.testbit v).
Proof.
  revert v; induction n; intros v Hv; [simpl in *; lia|].
  cbn [val]. rewrite pow2_S in Hv. set (s := 2 ^ N.of_nat n) in *.
  assert (Hs : s <> 0) by (unfold s; pose proof (pow2_pos n); lia).
  rewrite (N.div_mod v s Hs) at 1.
  rewrite (IHn (v mod s)) by (now apply N.mod_lt).
  rewrite N.testbit_spec'. fold s.
  assert (v / s < 2) by (apply N.div_lt_upper_bound; lia).
  rewrite (N.mod_small (v / s) 2) by auto. rewrite N.mul_comm. f_equal.
  apply val_ext. intros i Hi. now apply N.mod_pow2_bits_low.
Qed.

Lemma val_dig n g i1 i0 :
  (forall k, k < N.of_nat n -> g (2 * k) = i0 k) ->
  (forall k, k < N.of_nat n -> g (2 * k + 1) = i1 k) ->
  val (2 * n) g = dig n i1 i0.
Proof.
  intros H0 H1. induction n; auto.
  replace (2 * S n)%nat with (S (S (2 * n)))%nat by lia. cbn [val dig].
  rewrite IHn by (intros; (apply H0 || apply H1); lia).
  replace (N.of_nat (S (2 * n))) with (2 * N.of_nat n + 1) by lia.
  replace (N.of_nat (2 * n)) with (2 * N.of_nat n) by lia.
  rewrite H0, H1 by lia. rewrite N.pow_add_r.
  replace (2 ^ (2 * N.of_nat n)) with (4 ^ N.of_nat n) by (rewrite N.pow_mul_r; reflexivity).
  change (2 ^ 1) with 2. lia.
Qed.

(** ** The automaton computes [hilb] *)
Section Digits.
Variables x y : bits.
Hypothesis Hx : forall i, 16 <= i -> x i = false.
Hypothesis Hy : forall i, 16 <= i -> y i = false.

Definition stt (i : N) := W x y 16 i.
Definition i0b : bits := fa x y.
Definition i1b : bits := fun i =>
  xorb (snd (stt i)) (snd (stt (i + 1))) ||
  xorb (m16 i) (fa x y i || xorb (fst (stt i)) (fst (stt (i + 1)))).

Lemma stt_step i : stt i = step x y i (stt (i + 1)).
Proof.
  unfold stt. change (step x y i (W x y 16 (i + 1))) with (W x y 17 i).
  change 17%nat with (16 + 1)%nat. rewrite W_add.
  rewrite (W_high x y Hx Hy 1) by (simpl; lia). rewrite L_zero.
  destruct (W x y 16 i) as [[] []]; reflexivity.
Qed.

(** coordinates after the symmetry recorded in the state *)
Definition tr1 (s : bool * bool) : bits :=
  fun i => xorb (if xorb (fst s) (snd s) then y i else x i) (snd s).
Definition tr2 (s : bool * bool) : bits :=
  fun i => xorb (if xorb (fst s) (snd s) then x i else y i) (snd s).

Lemma hilb_digits n : (n <= 16)%nat ->
  hilb n (val n (tr1 (stt (N.of_nat n)))) (val n (tr2 (stt (N.of_nat n)))) = dig n i1b i0b.
Proof.
  induction n; intros Hn; auto.
  specialize (IHn ltac:(lia)). cbn [hilb dig].
  pose proof (stt_step (N.of_nat n)) as Hst.
  replace (N.of_nat n + 1) with (N.of_nat (S n)) in Hst by lia.
  assert (Hm : m16 (N.of_nat n) = true) by (apply N.ltb_lt; lia).
  assert (Hi1 : i1b (N.of_nat n) =
    xorb (snd (stt (N.of_nat n))) (snd (stt (N.of_nat (S n)))) ||
    negb (fa x y (N.of_nat n) || xorb (fst (stt (N.of_nat n))) (fst (stt (N.of_nat (S n)))))).
  { unfold i1b. rewrite Hm. replace (N.of_nat n + 1) with (N.of_nat (S n)) by lia.
    now rewrite xorb_true_l. }
  rewrite Hi1. clear Hi1. change (i0b (N.of_nat n)) with (fa x y (N.of_nat n)). rewrite <- IHn. clear IHn.
  rewrite Hst. clear Hst. destruct (stt (N.of_nat (S n))) as [p q].
  set (s := 2 ^ N.of_nat n). 
  cbn [val]. fold s.
  pose proof (pow2_pos n) as Hs. fold s in Hs.
  assert (V : forall f, val n f < s) by (intros; apply val_lt).
  assert (VN : forall f, s - 1 - val n f = val n (fun i => negb (f i))) by (intros; apply val_neg).
  unfold step, fa, fb, fc, fd, fa. rewrite Hm.
  unfold tr1, tr2. cbn [fst snd].
  assert (K0 : forall v, 0 * s + v = v) by (intros; lia).
  assert (K1 : forall v, 1 * s + v - s = v) by (intros; lia).
  destruct (x (N.of_nat n)) eqn:Ex, (y (N.of_nat n)) eqn:Ey, p, q;
    cbn [xorb negb andb orb N.b2n fst snd];
    repeat match goal with
    | |- context [0 * s + ?v] => rewrite (K0 v)
    | |- context [1 * s + ?v - s] => rewrite (K1 v)
    | |- context [val n ?f <? s] => rewrite (proj2 (N.ltb_lt (val n f) s) (V f))
    | |- context [1 * s + ?v <? s] => rewrite (proj2 (N.ltb_ge (1 * s + v) s) ltac:(lia))
    | |- context [s - 1 - val n ?f] => rewrite (VN f)
    end;
    match goal with |- context [hilb n ?a ?b] =>
      match goal with |- _ = _ + hilb n ?c ?d =>
        replace a with c by (apply val_ext; intros; cbn;
          repeat match goal with |- context [x ?i] => destruct (x i) | |- context [y ?i] => destruct (y i) end; reflexivity);
        replace b with d by (apply val_ext; intros; cbn;
          repeat match goal with |- context [x ?i] => destruct (x i) | |- context [y ?i] => destruct (y i) end; reflexivity)
      end end; lia.
Qed.
End Digits.

(** ** Interleaving *)
Lemma shl32_bit v k j : N.testbit (shl32 v k) j = (j <? 32) && (k <=? j) && N.testbit v (j - k).
Proof.
  unfold shl32. rewrite N.land_spec. change 0xFFFFFFFF with (N.ones 32).
  assert (E : N.testbit (N.ones 32) j = (j <? 32)).
  { destruct (N.ltb_spec j 32); [now apply N.ones_spec_low|now apply N.ones_spec_high]. }
  rewrite E. destruct (N.leb_spec k j) as [H|H].
  - rewrite N.shiftl_spec_high' by auto. now rewrite andb_true_r, andb_comm.
  - rewrite N.shiftl_spec_low by auto. now rewrite andb_false_r.
Qed.

Definition spr (mask k : N) (f : bits) : bits :=
  fun j => (f j || ((j <? 32) && (k <=? j) && f (j - k))) && N.testbit mask j.
Definition spread (f : bits) : bits :=
  spr 0x55555555 1 (spr 0x33333333 2 (spr 0x0F0F0F0F 4 (spr 0x00FF00FF 8 f))).

Lemma spread_spec v j : N.testbit (hilSpread v) j = spread (N.testbit v) j.
Proof. unfold hilSpread, spread, spr. now rewrite !N.land_spec, !N.lor_spec, !shl32_bit, !N.land_spec, !N.lor_spec, !shl32_bit, !N.land_spec, !N.lor_spec, !shl32_bit, !N.land_spec, !N.lor_spec, !shl32_bit. Qed.

Lemma mask_high mask j : mask < 2 ^ 32 -> 32 <= j -> N.testbit mask j = false.
Proof. apply bits_of_lt. Qed.

Lemma spread_high f j : 32 <= j -> spread f j = false.
Proof.
  intros H. unfold spread. unfold spr at 1. rewrite (mask_high 0x55555555) by (auto; reflexivity).
  apply andb_false_r.
Qed.

Lemma spread_bits f : (forall i, 16 <= i -> f i = false) ->
  (forall k, k < 16 -> spread f (2 * k) = f k) /\ (forall k, k < 16 -> spread f (2 * k + 1) = false).
Proof.
  intros Hf.
  assert (Hk : forall k, k < 16 -> k = 0 \/ k = 1 \/ k = 2 \/ k = 3 \/ k = 4 \/ k = 5 \/ k = 6 \/ k = 7 \/
    k = 8 \/ k = 9 \/ k = 10 \/ k = 11 \/ k = 12 \/ k = 13 \/ k = 14 \/ k = 15) by lia.
  assert (H16 := Hf 16 ltac:(lia)).
  assert (H17 := Hf 17 ltac:(lia)).
  assert (H18 := Hf 18 ltac:(lia)).
  assert (H19 := Hf 19 ltac:(lia)).
  assert (H20 := Hf 20 ltac:(lia)).
  assert (H21 := Hf 21 ltac:(lia)).
  assert (H22 := Hf 22 ltac:(lia)).
  assert (H23 := Hf 23 ltac:(lia)).
  assert (H24 := Hf 24 ltac:(lia)).
  assert (H25 := Hf 25 ltac:(lia)).
  assert (H26 := Hf 26 ltac:(lia)).
  assert (H27 := Hf 27 ltac:(lia)).
  assert (H28 := Hf 28 ltac:(lia)).
  assert (H29 := Hf 29 ltac:(lia)).
  assert (H30 := Hf 30 ltac:(lia)).
  assert (H31 := Hf 31 ltac:(lia)).
  split; intros k H; apply Hk in H;
  repeat match goal with H : _ \/ _ |- _ => destruct H as [H|H] end; subst k; vm_compute;
  rewrite ?H16, ?H17, ?H18, ?H19, ?H20, ?H21, ?H22, ?H23, ?H24, ?H25, ?H26, ?H27, ?H28, ?H29, ?H30, ?H31;
  repeat match goal with |- context [f ?i] => destruct (f i) end; reflexivity.
Qed.

(** ** The code *)
Lemma hilbert_code x y : x < 2 ^ 16 -> y < 2 ^ 16 -> hilbertXYToIndex x y = hilb 16 x y.
Proof.
  intros Lx Ly.
  set (X := N.testbit x). set (Y := N.testbit y).
  assert (HX : forall i, 16 <= i -> X i = false) by (intros; now apply (bits_of_lt 16)).
  assert (HY : forall i, 16 <= i -> Y i = false) by (intros; now apply (bits_of_lt 16)).
  pose proof (hilb_digits X Y HX HY 16 ltac:(lia)) as HD.
  assert (E16 : stt X Y (N.of_nat 16) = (false, false)).
  { unfold stt. apply W_high; auto. simpl; lia. }
  rewrite E16 in HD. unfold tr1, tr2 in HD. cbn [fst snd xorb] in HD.
  assert (Vx : val 16 (fun i => xorb (X i) false) = x).
  { rewrite (val_bits 16 x) at 1 by exact Lx. apply val_ext. intros. apply xorb_false_r. }
  assert (Vy : val 16 (fun i => xorb (Y i) false) = y).
  { rewrite (val_bits 16 y) at 1 by exact Ly. apply val_ext. intros. apply xorb_false_r. }
  rewrite Vx, Vy in HD. rewrite HD. clear HD.
  unfold hilbertXYToIndex.
  set (a0 := N.lxor x y).
  set (b0 := N.lxor 65535 a0).
  set (c0 := N.lxor 65535 (N.lor x y)).
  set (d0 := N.land x (N.lxor y 65535)).
  set (a1 := N.lor a0 (N.shiftr b0 1)).
  set (b1 := N.lxor (N.shiftr a0 1) a0).
  set (c1 := N.lxor (N.lxor (N.shiftr c0 1) (N.land b0 (N.shiftr d0 1))) c0).
  set (d1 := N.lxor (N.lxor (N.land a0 (N.shiftr c0 1)) (N.shiftr d0 1)) d0).
  set (a2 := N.lxor (N.land a1 (N.shiftr a1 2)) (N.land b1 (N.shiftr b1 2))).
  set (b2 := N.lxor (N.land a1 (N.shiftr b1 2)) (N.land b1 (N.shiftr (N.lxor a1 b1) 2))).
  set (c2 := N.lxor c1 (N.lxor (N.land a1 (N.shiftr c1 2)) (N.land b1 (N.shiftr d1 2)))).
  set (d2 := N.lxor d1 (N.lxor (N.land b1 (N.shiftr c1 2)) (N.land (N.lxor a1 b1) (N.shiftr d1 2)))).
  set (a3 := N.lxor (N.land a2 (N.shiftr a2 4)) (N.land b2 (N.shiftr b2 4))).
  set (b3 := N.lxor (N.land a2 (N.shiftr b2 4)) (N.land b2 (N.shiftr (N.lxor a2 b2) 4))).
  set (c3 := N.lxor c2 (N.lxor (N.land a2 (N.shiftr c2 4)) (N.land b2 (N.shiftr d2 4)))).
  set (d3 := N.lxor d2 (N.lxor (N.land b2 (N.shiftr c2 4)) (N.land (N.lxor a2 b2) (N.shiftr d2 4)))).
  set (c4 := N.lxor c3 (N.lxor (N.land a3 (N.shiftr c3 8)) (N.land b3 (N.shiftr d3 8)))).
  set (d4 := N.lxor d3 (N.lxor (N.land b3 (N.shiftr c3 8)) (N.land (N.lxor a3 b3) (N.shiftr d3 8)))).
  set (a5 := N.lxor c4 (N.shiftr c4 1)).
  set (b5 := N.lxor d4 (N.shiftr d4 1)).
  cbn zeta.
  set (v1 := N.lor b5 (N.lxor 65535 (N.lor a0 a5))).
  assert (S0 : stageInv X Y 2 (N.testbit a1) (N.testbit b1) (N.testbit c1) (N.testbit d1)).
  { destruct (stage1 X Y) as [P1 P2].
    assert (Q1 : forall i, N.testbit a1 i = A1 X Y i).
    { intros i. unfold a1, A1, fb, fa, b0, a0. now rewrite N.lor_spec, N.shiftr_spec', !N.lxor_spec, mask16. }
    assert (Q2 : forall i, N.testbit b1 i = B1 X Y i).
    { intros i. unfold b1, B1, fa, a0. now rewrite N.lxor_spec, N.shiftr_spec', !N.lxor_spec. }
    assert (Q3 : forall i, N.testbit c1 i = C1 X Y i).
    { intros i. unfold c1, C1, fc, fb, fd, fa, b0, c0, d0, a0.
      now rewrite !N.lxor_spec, !N.land_spec, !N.shiftr_spec', !N.lxor_spec, !N.land_spec, !N.lxor_spec, !N.lor_spec, !mask16. }
    assert (Q4 : forall i, N.testbit d1 i = D1 X Y i).
    { intros i. unfold d1, D1, fc, fb, fd, fa, b0, c0, d0, a0.
      now rewrite !N.lxor_spec, !N.land_spec, !N.shiftr_spec', !N.lxor_spec, !N.land_spec, !N.lxor_spec, !N.lor_spec, !mask16. }
    split.
    - intros i. rewrite Q3, Q4. apply P1.
    - intros i s Hi. rewrite Q1, Q2. now apply P2. }
  assert (S1 : stageInv X Y 4 (N.testbit a2) (N.testbit b2) (N.testbit c2) (N.testbit d2)).
  { apply (stage_next X Y HX HY 2 _ _ _ _ _ _ _ _ S0); intros i; unfold a2, b2, c2, d2;
    now rewrite !N.lxor_spec, !N.land_spec, !N.shiftr_spec', ?N.lxor_spec. }
  assert (S2 : stageInv X Y 8 (N.testbit a3) (N.testbit b3) (N.testbit c3) (N.testbit d3)).
  { apply (stage_next X Y HX HY 4 _ _ _ _ _ _ _ _ S1); intros i; unfold a3, b3, c3, d3;
    now rewrite !N.lxor_spec, !N.land_spec, !N.shiftr_spec', ?N.lxor_spec. }
  assert (S3 : forall i, (N.testbit c4 i, N.testbit d4 i) = stt X Y i).
  { destruct (stage_next X Y HX HY 8 _ _ _ _
      (fun i => xorb (N.testbit a3 i && N.testbit a3 (i + N.of_nat 8)) (N.testbit b3 i && N.testbit b3 (i + N.of_nat 8)))
      (fun i => xorb (N.testbit a3 i && N.testbit b3 (i + N.of_nat 8))
                  (N.testbit b3 i && xorb (N.testbit a3 (i + N.of_nat 8)) (N.testbit b3 (i + N.of_nat 8))))
      (N.testbit c4) (N.testbit d4) S2) as [P _]; auto; intros i; unfold c4, d4;
    now rewrite !N.lxor_spec, !N.land_spec, !N.shiftr_spec', ?N.lxor_spec. }
  assert (T1 : forall i, N.testbit v1 i = i1b X Y i).
  { intros i. unfold v1, i1b, a5, b5, a0. rewrite !N.lor_spec, !N.lxor_spec, !N.lor_spec, !N.lxor_spec, !N.shiftr_spec', mask16.
    rewrite <- (S3 i), <- (S3 (i + 1)). reflexivity. }
  assert (T0 : forall i, N.testbit a0 i = i0b X Y i).
  { intros i. unfold a0. apply N.lxor_spec. }
  assert (H1 : forall i, 16 <= i -> N.testbit v1 i = false).
  { intros i Hi. rewrite T1. unfold i1b, stt. rewrite !(W_high X Y HX HY) by lia.
    unfold fa. rewrite HX, HY by auto. assert (m16 i = false) as -> by (now apply N.ltb_ge). reflexivity. }
  assert (H0 : forall i, 16 <= i -> N.testbit a0 i = false).
  { intros i Hi. rewrite T0. unfold i0b, fa. now rewrite HX, HY by auto. }
  destruct (spread_bits _ H1) as [P1 P2]. destruct (spread_bits _ H0) as [P3 P4].
  rewrite (val_bits 32 (N.lor _ _)).
  2:{ apply lt_of_bits. intros j Hj. rewrite N.lor_spec, shl32_bit, (spread_spec a0).
      change (N.of_nat 32) with 32 in Hj. rewrite spread_high by auto.
      destruct (N.ltb_spec j 32); [lia|reflexivity]. }
  apply (val_dig 16); intros k Hk; change (N.of_nat 16) with 16 in Hk;
    rewrite N.lor_spec, shl32_bit, !spread_spec.
  - rewrite P3, T0 by auto. destruct (N.leb_spec 1 (2 * k)).
    + replace (2 * k - 1) with (2 * (k - 1) + 1) by lia. rewrite P2 by lia. now rewrite andb_false_r.
    + now rewrite andb_false_r.
  - rewrite P4 by auto. replace (2 * k + 1 - 1) with (2 * k) by lia. rewrite P1, T1 by auto.
    destruct (N.ltb_spec (2 * k + 1) 32); [|lia]. destruct (N.leb_spec 1 (2 * k + 1)); [|lia].
    now rewrite orb_false_r.
Qed.

(** ** C07 *)
(** The index of a grid point is its position along the Hilbert curve of order 16. *)
Theorem C07_position (x y : N) : x < 2 ^ 16 -> y < 2 ^ 16 ->
  hilbertXYToIndex x y < 2 ^ 32 /\ curve 16 (hilbertXYToIndex x y) = (x, y).
Proof.
  intros Hx Hy. rewrite hilbert_code by auto. split.
  - apply (hilb_range 16). - now apply curve_hilb.
Qed.

(** Conversely the d-th point of the curve has index d: a bijection. *)
Theorem C07_bijection (d : N) : d < 2 ^ 32 ->
  fst (curve 16 d) < 2 ^ 16 /\ snd (curve 16 d) < 2 ^ 16 /\
  hilbertXYToIndex (fst (curve 16 d)) (snd (curve 16 d)) = d.
Proof.
  intros Hd. destruct (curve_range 16 d) as [H1 H2]. split; [exact H1|]. split; [exact H2|].
  rewrite hilbert_code by auto. now apply (hilb_curve 16).
Qed.

Theorem C07_injective (x y x' y' : N) : x < 2 ^ 16 -> y < 2 ^ 16 -> x' < 2 ^ 16 -> y' < 2 ^ 16 ->
  hilbertXYToIndex x y = hilbertXYToIndex x' y' -> x = x' /\ y = y'.
Proof.
  intros H1 H2 H3 H4 E. destruct (C07_position x y) as [_ P]; auto.
  destruct (C07_position x' y') as [_ P']; auto. rewrite E, P' in P. split; congruence.
Qed.

(** Consecutive positions are neighbours in the grid. *)
Theorem C07_neighbours (d : N) : d + 1 < 2 ^ 32 -> adjacent (curve 16 d) (curve 16 (d + 1)).
Proof. apply (curve_adjacent 16). Qed.

Theorem C07_start_and_end : curve 16 0 = (0, 0) /\ curve 16 (2 ^ 32 - 1) = (2 ^ 16 - 1, 0).
Proof. split; [apply (curve_first 16)|apply (curve_last 16)]. Qed.
