(** * Exactness of the single precision ceil-division (used for C05).

    [ceilDivF n ns] (staticspatialindex.hpp:30,354) is the true ceiling of n/ns for
    every n up to 2^24 and every ns up to 65535. *)
From Coq Require Import ZArith Reals Lra Lia Psatz.
From Coq Require Floats.SpecFloat.
From Flocq Require Import Core IEEE754.BinarySingleNaN.
From Verif Require Import Base SpatialIndex.

Local Notation prec := 24%Z.
Local Notation emax := 128%Z.

#[local] Instance Hprec24 : Prec_gt_0 prec := eq_refl.
#[local] Instance Hmax24 : Prec_lt_emax prec emax := eq_refl.

Local Notation fexp := (SpecFloat.fexp prec emax).
Local Notation rnd := (round radix2 fexp ZnearestE).

Lemma fexp_FLT e : fexp e = FLT_exp (-149) prec e.
Proof. reflexivity. Qed.

Lemma rne_equiv s m l : SpecFloat.round_nearest_even m l = choice_mode mode_NE s m l.
Proof.
  destruct l as [|c]; [reflexivity|]. destruct c; try reflexivity.
  simpl; unfold Round.cond_incr; now destruct Z.even.
Qed.

Lemma bra_equiv sx mx ex lx :
  SpecFloat.binary_round_aux prec emax sx mx ex lx
  = binary_round_aux prec emax mode_NE sx mx ex lx.
Proof.
  unfold SpecFloat.binary_round_aux, binary_round_aux.
  destruct (SpecFloat.shr_fexp _ _ _ _) as [mrs' e']; simpl.
  now rewrite (rne_equiv sx).
Qed.

Lemma br_equiv s m e :
  SpecFloat.binary_round prec emax s m e = binary_round prec emax mode_NE s m e.
Proof.
  unfold SpecFloat.binary_round, binary_round, shl_align_fexp.
  destruct (SpecFloat.shl_align _ _ _) as [mz ez]. apply bra_equiv.
Qed.

Lemma bn_equiv m e szero :
  SpecFloat.binary_normalize prec emax m e szero
  = B2SF (binary_normalize prec emax Hprec24 Hmax24 mode_NE m e szero).
Proof.
  destruct m as [|p|p]; [reflexivity| |]; simpl; rewrite B2SF_SF2B; apply br_equiv.
Qed.

Lemma div_equiv x y :
  SpecFloat.SFdiv prec emax (B2SF x) (B2SF y)
  = B2SF (Bdiv (prec_gt_0_ := Hprec24) (prec_lt_emax_ := Hmax24) mode_NE x y).
Proof.
  destruct x as [sx|sx| |sx mx ex Bx]; destruct y as [sy|sy| |sy my ey By];
  try reflexivity; try (simpl; now destruct Bool.eqb).
  simpl. rewrite B2SF_SF2B.
  destruct (SpecFloat.SFdiv_core_binary _ _ _ _ _ _) as [[mz ez] lz].
  apply bra_equiv.
Qed.

Lemma fmt_Z (z : Z) : (Z.abs z <= 2 ^ 24)%Z -> generic_format radix2 fexp (IZR z).
Proof.
  intros H. change (generic_format radix2 (FLT_exp (-149) prec) (IZR z)).
  destruct (Z.eq_dec (Z.abs z) (2 ^ 24)) as [E|E].
  - assert (G : generic_format radix2 (FLT_exp (-149) prec) (bpow radix2 24)).
    { apply generic_format_bpow. unfold FLT_exp. lia. }
    destruct (Z.abs_eq_or_opp z) as [A|A]; rewrite A in E.
    + rewrite E. exact G.
    + replace z with (- (2 ^ 24))%Z by lia. rewrite opp_IZR.
      apply generic_format_opp. exact G.
  - apply generic_format_FLT. exists (Float radix2 z 0).
    + unfold F2R. simpl. ring.
    + simpl Fnum. change (Zpower radix2 prec) with (2 ^ 24)%Z. lia.
    + simpl. lia.
Qed.

Lemma B2R_of_Z z : (0 <= z <= 2 ^ 24)%Z ->
  let b := binary_normalize prec emax Hprec24 Hmax24 mode_NE z 0 false in
  B2R b = IZR z /\ is_finite b = true.
Proof.
  intros Hz b.
  pose proof (binary_normalize_correct prec emax Hprec24 Hmax24 mode_NE z 0 false) as H.
  cbv zeta in H. fold b in H.
  replace (F2R (Float radix2 z 0)) with (IZR z) in H by (unfold F2R; simpl; ring).
  rewrite round_generic in H; [|apply valid_rnd_round_mode|apply fmt_Z; lia].
  rewrite Rlt_bool_true in H.
  - split; apply H.
  - rewrite <- abs_IZR. apply Rle_lt_trans with (IZR (2 ^ 24)).
    + apply IZR_le. lia.
    + change (IZR (2 ^ 24)) with (bpow radix2 24). apply bpow_lt. lia.
Qed.

(** ceiling of a finite non-negative binary32 value *)
Lemma sf_ceilZ_B2SF (b : binary_float prec emax) :
  is_finite b = true -> (0 <= B2R b)%R -> sf_ceilZ (B2SF b) = Zceil (B2R b).
Proof.
  destruct b as [s|s| |s m e B]; simpl; intros Hf Hp; try discriminate.
  - now rewrite Zceil_IZR.
  - destruct s.
    { exfalso. unfold F2R in Hp. simpl in Hp.
      assert (0 < bpow radix2 e)%R by apply bpow_gt_0.
      assert (IZR (Z.neg m) < 0)%R by (apply IZR_lt; lia). nra. }
    simpl. unfold F2R; simpl Fnum; simpl Fexp.
    destruct (Z.leb_spec 0 e).
    + rewrite <- IZR_Zpower by auto. rewrite <- mult_IZR. now rewrite Zceil_IZR.
    + unfold Zceil. f_equal.
      assert (E : (- (IZR (Z.pos m) * bpow radix2 e) = IZR (- Z.pos m) / IZR (2 ^ (- e)))%R).
      { rewrite opp_IZR. change (2 ^ (- e))%Z with (Zpower radix2 (- e)).
        rewrite IZR_Zpower by lia. rewrite bpow_opp.
        field. apply Rgt_not_eq, bpow_gt_0. }
      simpl cond_Zopp. rewrite E. symmetry. apply Zfloor_div.
      apply Z.pow_nonzero; lia.
Qed.

(** the true ceiling of n / ns *)
Definition ceilDiv (n ns : Z) : Z := ((n + ns - 1) / ns)%Z.

Theorem ceilDivF_Z_exact n ns :
  (0 <= n <= 2 ^ 24)%Z -> (1 <= ns <= 65535)%Z -> ceilDivF_Z n ns = ceilDiv n ns.
Proof.
  intros Hn Hns. unfold ceilDivF_Z, f32_of_Z.
  rewrite !bn_equiv, div_equiv.
  set (bn := binary_normalize _ _ _ _ _ n _ _). set (bs := binary_normalize _ _ _ _ _ ns _ _).
  destruct (B2R_of_Z n Hn) as [Rn Fn]. fold bn in Rn, Fn.
  destruct (B2R_of_Z ns ltac:(lia)) as [Rs Fs]. fold bs in Rs, Fs.
  set (k := ceilDiv n ns).
  assert (Hk : (n <= k * ns < n + ns)%Z).
  { unfold k, ceilDiv. pose proof (Z.mul_div_le (n + ns - 1) ns).
    pose proof (Z.mul_succ_div_gt (n + ns - 1) ns). nia. }
  assert (Hk0 : (0 <= k <= 2 ^ 24)%Z) by nia.
  assert (Nspos : (0 < IZR ns)%R) by (apply IZR_lt; lia).
  assert (Qk : (IZR n / IZR ns <= IZR k)%R).
  { apply Rmult_le_reg_r with (IZR ns); auto. unfold Rdiv.
    rewrite Rmult_assoc, Rinv_l, Rmult_1_r by lra. rewrite <- mult_IZR. apply IZR_le. lia. }
  assert (Q0 : (0 <= IZR n / IZR ns)%R).
  { apply Rmult_le_pos; [apply IZR_le; lia|]. apply Rlt_le, Rinv_0_lt_compat; auto. }
  set (q := (IZR n / IZR ns)%R) in *.
  pose proof (Bdiv_correct prec emax Hprec24 Hmax24 mode_NE bn bs) as D.
  rewrite Rn, Rs in D. fold q in D. specialize (D ltac:(lra)). simpl round_mode in D.
  assert (Vr : Valid_rnd ZnearestE) by apply valid_rnd_N.
  assert (Ve : Valid_exp fexp) by (apply FLT_exp_valid; reflexivity).
  assert (U : (rnd q <= IZR k)%R) by (apply round_le_generic; auto; apply fmt_Z; lia).
  assert (L : (0 <= rnd q)%R) by (apply round_ge_generic; auto; apply (fmt_Z 0); lia).
  rewrite Rlt_bool_true in D.
  2:{ rewrite Rabs_pos_eq by auto. apply Rle_lt_trans with (1 := U).
      apply Rle_lt_trans with (IZR (2 ^ 24)); [apply IZR_le; lia|].
      change (IZR (2 ^ 24)) with (bpow radix2 24). apply bpow_lt. lia. }
  destruct D as (D1 & D2 & _). rewrite Fn in D2.
  rewrite sf_ceilZ_B2SF; auto; [|rewrite D1; auto].
  rewrite D1. apply Zceil_imp. split; [|auto].
  (* k - 1 < rnd q *)
  destruct (Z.eq_dec k 0) as [K0|K0].
  { rewrite K0. simpl. lra. }
  assert (Qlow : (IZR (k - 1) + / IZR ns <= q)%R).
  { apply Rmult_le_reg_r with (IZR ns); auto. unfold q, Rdiv.
    rewrite Rmult_plus_distr_r, Rinv_l, Rmult_assoc, Rinv_l, Rmult_1_r by lra.
    rewrite <- mult_IZR, <- plus_IZR. apply IZR_le. nia. }
  assert (Hge : (IZR (k - 1) <= rnd q)%R).
  { apply round_ge_generic; auto; [apply fmt_Z; lia|].
    assert (0 < / IZR ns)%R by (now apply Rinv_0_lt_compat). lra. }
  destruct (Rle_lt_or_eq_dec _ _ Hge) as [H|H]; auto. exfalso.
  pose proof (error_le_half_ulp_round radix2 fexp (fun x => negb (Z.even x)) q) as E.
  rewrite <- H in E.
  destruct (Z.eq_dec k 1) as [K1|K1].
  - rewrite K1 in *. simpl IZR in *. (* rnd q = 0 although q is not tiny *)
    assert (bpow radix2 (-16) <= rnd q)%R.
    { apply round_ge_generic; auto.
      - apply generic_format_bpow. rewrite fexp_FLT. unfold FLT_exp. lia.
      - apply Rle_trans with (/ IZR ns)%R; [|lra].
        change (bpow radix2 (-16)) with (/ IZR 65536)%R.
        apply Rinv_le; auto. apply IZR_le. lia. }
    assert (0 < bpow radix2 (-16))%R by apply bpow_gt_0. lra.
  - assert (Up : (ulp radix2 fexp (IZR (k - 1)) <= Rabs (IZR (k - 1)) * bpow radix2 (1 - prec))%R).
    { apply (ulp_FLT_le radix2 (-149) prec). rewrite <- abs_IZR.
      apply Rle_trans with 1%R; [|apply IZR_le; lia].
      change 1%R with (bpow radix2 0). apply bpow_le. lia. }
    rewrite Rabs_pos_eq in Up by (apply IZR_le; lia).
    rewrite Rabs_left1 in E.
    2:{ assert (0 < / IZR ns)%R by (now apply Rinv_0_lt_compat). lra. }
    change (bpow radix2 (1 - prec)) with (/ IZR 8388608)%R in Up.
    assert (S : (/ IZR ns <= / 2 * (IZR (k - 1) * / 8388608))%R) by lra.
    apply Rmult_le_compat_r with (r := IZR ns) in S; [|lra].
    rewrite Rinv_l in S by lra.
    assert (S2 : (IZR (k - 1) * IZR ns < 16777216)%R).
    { rewrite <- mult_IZR. apply IZR_lt. nia. }
    nra.
Qed.

(** ceil division on nat, used as specification of the level sizes *)
Definition cdiv (n ns : nat) : nat := (n + ns - 1) / ns.

Theorem ceilDivF_exact n ns :
  (Z.of_nat n <= 2 ^ 24)%Z -> 1 <= ns -> (Z.of_nat ns <= 65535)%Z -> ceilDivF n ns = cdiv n ns.
Proof.
  intros Hn Hs Hs'. unfold ceilDivF, cdiv. rewrite ceilDivF_Z_exact by lia.
  unfold ceilDiv. replace (Z.of_nat n + Z.of_nat ns - 1)%Z with (Z.of_nat (n + ns - 1)) by lia.
  rewrite <- Nat2Z.inj_div. apply Nat2Z.id.
Qed.
