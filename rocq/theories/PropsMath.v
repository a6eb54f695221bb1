(** * C09, C10, C11: mathutils.hpp *)
From Coq Require Import ZArith Reals Lra Lia Psatz List Bool Arith.
From Verif Require Import Base Num MathUtils PlineSegment RGeom.
Import ListNotations.
Open Scope R_scope.

(** ** Specification: congruence of angles *)
Definition congruent (a b : R) : Prop := exists k : Z, b = a + IZR k * (2 * PI).

Lemma congruent_refl a : congruent a a.
Proof. exists 0%Z. lra. Qed.
Lemma congruent_sym a b : congruent a b -> congruent b a.
Proof. intros [k ->]. exists (- k)%Z. rewrite opp_IZR. lra. Qed.
Lemma congruent_trans a b c : congruent a b -> congruent b c -> congruent a c.
Proof. intros [k ->] [l ->]. exists (k + l)%Z. rewrite plus_IZR. lra. Qed.
Lemma congruent_cos a b : congruent a b -> cos a = cos b.
Proof.
  intros [k ->]. replace (a + IZR k * (2 * PI)) with (a + 2 * IZR k * PI) by lra.
  assert (P : forall (n : nat) x, cos (x + 2 * INR n * PI) = cos x) by (intros; apply cos_period).
  destruct (Z_le_gt_dec 0 k) as [H|H].
  - rewrite <- (Z2Nat.id k) by lia. rewrite <- INR_IZR_INZ. now rewrite P.
  - rewrite <- (P (Z.to_nat (- k)) (a + 2 * IZR k * PI)). f_equal.
    rewrite INR_IZR_INZ, Z2Nat.id by lia. rewrite opp_IZR. lra.
Qed.
Lemma congruent_sin a b : congruent a b -> sin a = sin b.
Proof.
  intros [k ->]. replace (a + IZR k * (2 * PI)) with (a + 2 * IZR k * PI) by lra.
  assert (P : forall (n : nat) x, sin (x + 2 * INR n * PI) = sin x) by (intros; apply sin_period).
  destruct (Z_le_gt_dec 0 k) as [H|H].
  - rewrite <- (Z2Nat.id k) by lia. rewrite <- INR_IZR_INZ. now rewrite P.
  - rewrite <- (P (Z.to_nat (- k)) (a + 2 * IZR k * PI)). f_equal.
    rewrite INR_IZR_INZ, Z2Nat.id by lia. rewrite opp_IZR. lra.
Qed.

Lemma congruent_unique a b lo : congruent a b -> lo <= a < lo + 2 * PI -> lo <= b < lo + 2 * PI -> a = b.
Proof.
  intros [k ->] Ha Hb. pose proof PI_RGT_0.
  assert (-1 < k)%Z by (apply lt_IZR; simpl; nra).
  assert (k < 1)%Z by (apply lt_IZR; simpl; nra).
  assert (k = 0)%Z by lia. subst. lra.
Qed.
Lemma congruent_unique' a b lo : congruent a b -> lo < a <= lo + 2 * PI -> lo < b <= lo + 2 * PI -> a = b.
Proof.
  intros [k ->] Ha Hb. pose proof PI_RGT_0.
  assert (-1 < k)%Z by (apply lt_IZR; simpl; nra).
  assert (k < 1)%Z by (apply lt_IZR; simpl; nra).
  assert (k = 0)%Z by lia. subst. lra.
Qed.

(** ** C09 *)
Theorem C09_normalizeRadians (a : R) :
  0 <= normalizeRadians a <= 2 * PI /\ congruent a (normalizeRadians a) /\
  (0 <= a <= 2 * PI -> normalizeRadians a = a) /\
  (~ (0 <= a <= 2 * PI) -> normalizeRadians a < 2 * PI).
Proof.
  unfold normalizeRadians. rcbn. pose proof PI_RGT_0 as HP.
  destruct (Rleb 0 a && Rleb a (2 * PI))%bool eqn:E; rbool.
  - repeat split; try lra. apply congruent_refl.
  - pose proof (Zfloor_bounds (a / (2 * PI))) as [F1 F2].
    set (k := Zfloor (a / (2 * PI))) in *.
    assert (Ea : a = a / (2 * PI) * (2 * PI)) by (field; lra).
    assert (B : 0 <= a - IZR k * (2 * PI) < 2 * PI) by nra.
    repeat split; try lra.
    + exists (- k)%Z. rewrite opp_IZR. lra.
    + intros H. apply andb_false_iff in E. destruct E as [E|E]; rbool; lra.
Qed.

Theorem C09_deltaAngle (a1 a2 : R) :
  - PI < deltaAngle a1 a2 <= PI /\ congruent (a2 - a1) (deltaAngle a1 a2).
Proof.
  unfold deltaAngle. destruct (C09_normalizeRadians (a2 - a1)) as (H1 & H2 & _). rcbn.
  set (d := normalizeRadians (a2 - a1)) in *.
  destruct (Rltb PI d) eqn:E; rbool; split; try lra.
  - eapply congruent_trans; [exact H2|]. exists (-1)%Z. simpl. lra.
  - pose proof PI_RGT_0; lra.
  - exact H2.
Qed.

(** ** C10 *)
Theorem C10_quadraticSolutions (a b c : R) :
  a <> 0 -> 0 <= b * b - 4 * a * c -> ~ (b = 0 /\ c = 0) ->
  let '(s1, s2) := quadraticSolutions a b c (b * b - 4 * a * c) in
  forall t, a * t * t + b * t + c = a * (t - s1) * (t - s2).
Proof.
  intros Ha Hd Hbc. unfold quadraticSolutions. rcbn.
  pose proof (sqrt_sqrt _ Hd) as Hs. pose proof (sqrt_pos (b * b - 4 * a * c)) as Hs0.
  set (s := sqrt (b * b - 4 * a * c)) in *.
  assert (G : forall e, e * e = s * s -> - b + e <> 0 ->
    forall t, a * t * t + b * t + c = a * (t - (- b + e) / (2 * a)) * (t - c / a / ((- b + e) / (2 * a)))).
  { intros e He Hne t. rewrite <- He in Hs. field_simplify_eq; [|split; auto].
    assert (c = (b * b - e * e) / (4 * a)) as -> by (field_simplify_eq; lra).
    field; auto. }
  destruct (Rltb b 0) eqn:E; rbool.
  - apply G; lra.
  - replace (- b - s) with (- b + - s) by lra. apply G; [lra|].
    intros H. assert (b = 0) by lra. assert (s = 0) by lra. apply Hbc. split; auto.
    subst b. rewrite H1 in Hs. nra.
Qed.

(** consequence: exactly the roots *)
Corollary C10_roots_exact (a b c : R) :
  a <> 0 -> 0 <= b * b - 4 * a * c -> ~ (b = 0 /\ c = 0) ->
  forall t, a * t * t + b * t + c = 0 <->
    t = fst (quadraticSolutions a b c (b * b - 4 * a * c)) \/
    t = snd (quadraticSolutions a b c (b * b - 4 * a * c)).
Proof.
  intros Ha Hd Hbc t. pose proof (C10_quadraticSolutions a b c Ha Hd Hbc) as H.
  destruct (quadraticSolutions a b c (b * b - 4 * a * c)) as [s1 s2]. cbn [fst snd].
  specialize (H t). rewrite H. split.
  - intros Hz. apply Rmult_integral in Hz. destruct Hz as [Hz|Hz]; [|right; lra].
    apply Rmult_integral in Hz. destruct Hz; [contradiction|left; lra].
  - intros [-> | ->]; ring.
Qed.

(** The excluded case b = c = 0 (a double root at 0) is really undefined: the division 0/0.  *)
Example C10_hypotheses_met :
  2 <> 0 /\ 0 <= (-3) * (-3) - 4 * 2 * 1 /\ ~ (-3 = 0 /\ 1 = 0).
Proof. repeat split; lra. Qed.

(** ** C11 *)
Local Open Scope nat_scope.
Theorem C11_wrapping (n i : nat) : i < n ->
  nextWrappingIndex i n < n /\ prevWrappingIndex i n < n /\
  prevWrappingIndex (nextWrappingIndex i n) n = i /\
  nextWrappingIndex (prevWrappingIndex i n) n = i /\
  nextWrappingIndex i n = (i + 1) mod n /\
  prevWrappingIndex i n = (i + n - 1) mod n.
Proof.
  intros H. unfold nextWrappingIndex, prevWrappingIndex.
  assert (Hm : (i + 1) mod n = if S i =? n then 0 else S i).
  { destruct (Nat.eqb_spec (S i) n) as [E|E].
    - replace (i + 1) with n by lia. apply Nat.mod_same. lia.
    - rewrite Nat.mod_small; lia. }
  assert (Hp : (i + n - 1) mod n = if i =? 0 then n - 1 else i - 1).
  { destruct (Nat.eqb_spec i 0) as [E|E].
    - subst. rewrite Nat.mod_small; lia.
    - replace (i + n - 1) with (i - 1 + 1 * n) by lia. rewrite Nat.mod_add by lia.
      rewrite Nat.mod_small; lia. }
  rewrite Hm, Hp.
  destruct (Nat.eqb_spec (S i) n), (Nat.eqb_spec i 0); repeat split; try lia.
  all: repeat match goal with |- context [?a =? ?b] => destruct (Nat.eqb_spec a b); try lia end.
Qed.
