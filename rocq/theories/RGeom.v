(** * RGeom: working with the exact-real instance of the model.
    No /repo code is modelled here; only unfolding lemmas and real-number facts. *)
From Coq Require Import ZArith Reals Lra Lia Psatz List Bool.
From Verif Require Import Base Num MathUtils PlineSegment.
Import ListNotations.
Open Scope R_scope.

#[export] Existing Instance ROps.
Canonical Structure ROps.
Canonical Structure ROrd.

Lemma lit_R n d : tlit n d = IZR n / IZR (Zpos d).
Proof. reflexivity. Qed.
Lemma t0_R : t0 = 0.
Proof. unfold t0, tlit; simpl. lra. Qed.
Lemma t1_R : t1 = 1.
Proof. unfold t1, tlit; simpl. lra. Qed.
Lemma t2_R : t2 = 2.
Proof. unfold t2, tlit; simpl. lra. Qed.
Lemma t4_R : t4 = 4.
Proof. unfold t4, tlit; simpl. lra. Qed.
Lemma tau_R : tau = 2 * PI.
Proof. unfold tau. rewrite t2_R. reflexivity. Qed.
Lemma pi_R : pi = PI.
Proof. reflexivity. Qed.
Lemma thr_R : realThreshold = 1 / 100000000.
Proof. reflexivity. Qed.
Lemma prec_R : realPrecision = 1 / 100000.
Proof. reflexivity. Qed.
Lemma sjt_R : sliceJoinThreshold = 1 / 10000.
Proof. reflexivity. Qed.
Lemma oth_R : offsetThreshold = 1 / 10000.
Proof. reflexivity. Qed.

(** reduce the class operations of the exact instance to Coq's reals *)
Ltac rcbn :=
  cbn [T tadd tsub tmul tdiv topp tabs tsqrt tfloor tltb tleb teqb tsin tcos ttan tatan
       tacos tatan2 tpi tofnat inj ROps vx vy pos bulge] in *;
  change (@T ROps) with R in *;
  rewrite ?t0_R, ?t1_R, ?t2_R, ?t4_R, ?tau_R, ?pi_R, ?thr_R, ?prec_R, ?sjt_R, ?oth_R, ?lit_R in *.

(** boolean comparisons to propositions *)
Ltac rbool :=
  repeat match goal with
  | H : Rltb _ _ = true |- _ => apply Rltb_spec in H
  | H : Rltb _ _ = false |- _ => apply Rltb_false in H
  | H : Rleb _ _ = true |- _ => apply Rleb_spec in H
  | H : Rleb _ _ = false |- _ => apply Rleb_false in H
  | H : Reqb _ _ = true |- _ => apply Reqb_spec in H
  | H : Reqb _ _ = false |- _ => apply Reqb_false in H
  | H : (_ && _)%bool = true |- _ => apply andb_true_iff in H; destruct H
  | H : (_ || _)%bool = false |- _ => apply orb_false_iff in H; destruct H
  | H : negb _ = true |- _ => apply negb_true_iff in H
  | H : negb _ = false |- _ => apply negb_false_iff in H
  end.

Lemma vec_eq (a b : vec) : vx a = vx b -> vy a = vy b -> a = b.
Proof. destruct a, b; simpl; congruence. Qed.

Lemma Zfloor_bounds x : IZR (Zfloor x) <= x < IZR (Zfloor x) + 1.
Proof. unfold Zfloor. destruct (base_Int_part x). lra. Qed.

Lemma Rabs_lt_iff a e : Rabs a < e <-> - e < a < e.
Proof. split; [intros H; apply Rabs_def2 in H; tauto|intros; now apply Rabs_def1]. Qed.

Lemma fuzzyEqualR_R x y e : fuzzyEqualR x y e = true <-> Rabs (x - y) < e.
Proof. unfold fuzzyEqualR. simpl. apply Rltb_spec. Qed.

Lemma fuzzyEqual_R (a b : vec) e :
  fuzzyEqual a b e = true <-> Rabs (vx a - vx b) < e /\ Rabs (vy a - vy b) < e.
Proof. unfold fuzzyEqual. rewrite andb_true_iff, !fuzzyEqualR_R. reflexivity. Qed.

(** [ring] looks at the type of the left-hand side, which may be the class field [T] *)
Ltac rring := first [ring | apply Rminus_diag_uniq; ring].
Ltac rfield := first [field | apply Rminus_diag_uniq; field].
