(** * The stretches between the cuts of a polyline cover it exactly once *)
From Coq Require Import ZArith Reals Lra Lia Psatz List Bool Arith Permutation Sorted.
From Coquelicot Require Import Coquelicot.
From Verif Require Import Base Num MathUtils PlineSegment SpatialIndex Polyline Intersects Combine StdLaws RGeom Spec PropsMath ArcGeom Polar PropsSegment PropsClosest PropsIntr PropsPlineIntr PropsPolyline Turning PropsWinding PropsRegion PropsCoincident PropsSlices PropsPieces PropsTrace PropsPlineIndex PropsBoolOps.
Import ListNotations.
Open Scope R_scope.

(** ** Sums *)
Lemma sumR_nil : sumR [] = 0.
Proof. reflexivity. Qed.

Lemma sum_flat_map {X Y} (f : Y -> R) (g : X -> list Y) l : sumR (map f (flat_map g l)) = sumR (map (fun x => sumR (map f (g x))) l).
Proof. induction l as [|x l IH]; [reflexivity|]. cbn [flat_map map]. rewrite map_app, sumR_app, sumR_cons, IH. reflexivity. Qed.

Lemma sum_ext {X} (f g : X -> R) l : (forall x, In x l -> f x = g x) -> sumR (map f l) = sumR (map g l).
Proof. intros H. f_equal. now apply map_ext_in. Qed.

Lemma sum_add {X} (f g : X -> R) l : sumR (map (fun x => f x + g x) l) = sumR (map f l) + sumR (map g l).
Proof. induction l as [|x l IH]; [unfold sumR; cbn; lra|]. cbn [map]. rewrite !sumR_cons, IH. lra. Qed.

Lemma sum_zero {X} (f : X -> R) l : (forall x, In x l -> f x = 0) -> sumR (map f l) = 0.
Proof. induction l as [|x l IH]; intros H; [reflexivity|]. cbn [map]. rewrite sumR_cons, IH, H; [lra|now left|]. intros y Hy. apply H. now right. Qed.

Lemma sum_scal {X} (f : X -> R) c l : sumR (map (fun x => c * f x) l) = c * sumR (map f l).
Proof. induction l as [|x l IH]; [unfold sumR; cbn; lra|]. cbn [map]. rewrite !sumR_cons, IH. lra. Qed.

Lemma find_ext {X} (f g : X -> bool) l : (forall x, f x = g x) -> find f l = find g l.
Proof. intros H. induction l as [|x l IH]; [reflexivity|]. cbn [find]. rewrite H, IH. reflexivity. Qed.

Lemma find_least (P : nat -> bool) len st : (exists e, In e (seq st len) /\ P e = true) ->
  exists d, find P (seq st len) = Some d /\ (st <= d < st + len)%nat /\ P d = true /\ forall e, (st <= e < d)%nat -> P e = false.
Proof.
  revert st. induction len as [|len IH]; intros st (e & He & HP); [destruct He|]. cbn [seq find]. destruct (P st) eqn:Eps.
  - exists st. split; [auto|]. split; [lia|]. split; [auto|]. intros; lia.
  - destruct (IH (S st)) as (d & D1 & D2 & D3 & D4).
    { exists e. split; [|auto]. cbn [seq] in He. destruct He as [<-|He]; [congruence|auto]. }
    exists d. split; [auto|]. split; [lia|]. split; [auto|]. intros e' He'. destruct (Nat.eq_dec e' st) as [->|]; [auto|]. apply D4. lia.
Qed.

(** ** Going around: every index is passed exactly once *)
Section Around.
Context (n : nat) (C : nat -> bool) (g : nat -> R).
Hypothesis Hn : (0 < n)%nat.

Definition gapOf (k : nat) : nat := match find (fun d => C ((k + d) mod n)) (seq 1 n) with Some d => d | None => 0 end.
Definition gapSum (k : nat) : R := if C (k mod n) then sumR (map (fun e => g ((k + e) mod n)) (seq 1 (gapOf k))) else 0.

Lemma around_from : forall m i, (m <= n)%nat -> C (i mod n) = true -> C ((i + m) mod n) = true ->
  sumR (map gapSum (seq i m)) = sumR (map (fun j => g (j mod n)) (seq (S i) m)).
Proof.
  intros m. induction m as [m IH] using lt_wf_ind. intros i Hm Hi Him. destruct m as [|m]; [reflexivity|].
  destruct (find_least (fun d => C ((i + d) mod n)) n 1) as (d & Ed & Hd & HPd & Hf). { exists (S m). split; [apply in_seq; lia|exact Him]. }
  assert (Hdm : (d <= S m)%nat). { destruct (le_lt_dec d (S m)); [auto|]. specialize (Hf (S m) ltac:(lia)). cbv beta in Hf. congruence. }
  assert (E1 : seq i (S m) = [i] ++ seq (i + 1) (d - 1) ++ seq (i + d) (S m - d)).
  { replace (S m) with (1 + ((d - 1) + (S m - d)))%nat at 1 by lia. rewrite !seq_app. cbn [seq]. replace (i + 1 + (d - 1))%nat with (i + d)%nat by lia. reflexivity. }
  assert (E2 : seq (S i) (S m) = seq (S i) d ++ seq (S (i + d)) (S m - d)).
  { replace (S m) with (d + (S m - d))%nat at 1 by lia. rewrite seq_app. replace (S i + d)%nat with (S (i + d)) by lia. reflexivity. }
  rewrite E1, E2, !map_app, !sumR_app. cbn [map]. rewrite sumR_cons, sumR_nil.
  rewrite (sum_zero gapSum (seq (i + 1) (d - 1))).
  2:{ intros j Hj. apply in_seq in Hj. unfold gapSum. specialize (Hf (j - i)%nat ltac:(lia)). cbv beta in Hf. replace (i + (j - i))%nat with j in Hf by lia. now rewrite Hf. }
  rewrite (IH (S m - d)%nat) with (i := (i + d)%nat) by (first [lia|exact HPd|now replace (i + d + (S m - d))%nat with (i + S m)%nat by lia]).
  assert (E3 : gapSum i = sumR (map (fun j => g (j mod n)) (seq (S i) d))); [|lra].
  unfold gapSum, gapOf. rewrite Hi, Ed. replace (seq (S i) d) with (map (fun e => (i + e)%nat) (seq 1 d)); [now rewrite map_map|].
  clear. rewrite <- (Nat.add_1_r i). generalize 1%nat as s. induction d as [|d IH]; intros s; [reflexivity|]. cbn [seq map]. f_equal. rewrite IH. f_equal. lia.
Qed.

Lemma sum_period (f : nat -> R) k : (forall i, f (i + n)%nat = f i) -> sumR (map f (seq k n)) = sumR (map f (seq 0 n)).
Proof.
  intros Hf. induction k as [|k IH]; [reflexivity|]. rewrite <- IH. destruct n as [|n']; [lia|]. rewrite (seq_S n' (S k)). cbn [seq]. rewrite map_app, sumR_app. cbn [map]. rewrite !sumR_cons, sumR_nil.
  replace (S k + n')%nat with (k + S n')%nat by lia. rewrite Hf. lra.
Qed.

Lemma mod_shift i : ((i + n) mod n = i mod n)%nat.
Proof. rewrite <- (Nat.mul_1_l n) at 1. apply Nat.mod_add. lia. Qed.

Lemma gapOf_shift k : gapOf (k + n) = gapOf k.
Proof. unfold gapOf. erewrite find_ext; [reflexivity|]. intros d. cbv beta. f_equal. replace (k + n + d)%nat with (k + d + n)%nat by lia. apply mod_shift. Qed.

Theorem around : (exists k, (k < n)%nat /\ C k = true) -> sumR (map gapSum (seq 0 n)) = sumR (map g (seq 0 n)).
Proof.
  intros (k & Hk & HC). assert (EC : C (k mod n) = true) by (now rewrite Nat.mod_small).
  rewrite <- (sum_period gapSum k).
  2:{ intros i. unfold gapSum. rewrite mod_shift, gapOf_shift. destruct (C (i mod n)); [|reflexivity]. apply sum_ext. intros e _. f_equal. replace (i + n + e)%nat with (i + e + n)%nat by lia. apply mod_shift. }
  rewrite (around_from n k (le_n n) EC) by (now rewrite mod_shift).
  rewrite (sum_period (fun j => g (j mod n)) (S k)) by (intros i; now rewrite mod_shift). apply sum_ext. intros i Hi. apply in_seq in Hi. now rewrite Nat.mod_small by lia.
Qed.
End Around.

Lemma finite_choice {X} (P : nat -> X -> Prop) (d : X) n : (forall k, (k < n)%nat -> exists x, P k x) -> exists f : nat -> X, forall k, (k < n)%nat -> P k (f k).
Proof.
  induction n as [|n IH]; intros H; [exists (fun _ => d); intros; lia|]. destruct IH as (f & Hf); [intros; apply H; lia|]. destruct (H n ltac:(lia)) as (x & Hx).
  exists (fun k => if Nat.eqb k n then x else f k). intros k Hk. destruct (Nat.eqb_spec k n) as [->|]; [auto|]. apply Hf. lia.
Qed.

(** ** Additive quantities *)
Section Cover.
Context {SL : StdLib} {SLaws : StdLaws SL}.
Context (pl other : polyline) (cs : list (nat * slicePoint)).
Let n := length (vertexes pl).
Hypothesis (Hn : (2 <= n)%nat) (Hsmall : smallBulges pl) (Hsep : sep pl cs).
Hypothesis Hcut : forall k c, In (k, c) cs -> (k < n)%nat /\ spStart c = false /\
  exists t, 0 <= t <= 1 /\ spPos c = seg pl k t /\
    longArc (vert pl k 0) (vert pl k 1) (pos (vert pl k 0)) (spPos c) /\ longArc (vert pl k 0) (vert pl k 1) (spPos c) (pos (vert pl k 1)).
Hypothesis Hpair : forall k c c', In (k, c) cs -> In (k, c') cs -> spPos c = spPos c' \/ (far (spPos c) (spPos c') /\ longArc (vert pl k 0) (vert pl k 1) (spPos c) (spPos c')).

(** a quantity [mu] of segments (start, bulge, end) that is additive along each segment of the polyline *)
Context (mu : vec * R * vec -> R) (M : nat -> R -> R -> R).
Hypothesis Madd : forall k a b c, (k < n)%nat -> 0 <= a -> a <= b -> b <= c -> c <= 1 -> M k a c = M k a b + M k b c.
Hypothesis Mpiece : forall k a b u w, (k < n)%nat -> 0 <= a -> a < b -> b <= 1 -> piece (vert pl k 0) (vert pl k 1) a b u w -> Rabs (bulge u) <= 1 -> mu (seg3 (u, w)) = M k a b.

Definition muL (l : list vertex) : R := sumR (map mu (traceOf l)).

Lemma M_zero k a : (k < n)%nat -> 0 <= a <= 1 -> M k a a = 0.
Proof. intros Hk Ha. pose proof (Madd k a a a Hk ltac:(lra) ltac:(lra) ltac:(lra) ltac:(lra)). lra. Qed.

Lemma between_mu k : (k < n)%nat -> forall ts a w, cont pl k a w -> In (k, mkSP (seg pl k a) false) cs -> StronglySorted Rle (a :: ts) ->
  (forall t, In t ts -> 0 <= t <= 1 /\ In (k, mkSP (seg pl k t) false) cs) ->
  sumR (map muL (between (vert pl k 1) w (mkSP (seg pl k a) false) (map (fun t => mkSP (seg pl k t) false) ts))) = M k a (last ts a).
Proof.
  intros Hk. induction ts as [|b ts IH]; intros a w Hw Ha Hs Ht; [cbn; symmetry; apply M_zero; auto; destruct Hw; lra|].
  cbn [map between]. apply StronglySorted_inv in Hs. destruct Hs as [Hs Hf].
  destruct (Ht b (or_introl eq_refl)) as [Hb01 Hb]. assert (Hab : a <= b) by (rewrite List.Forall_forall in Hf; apply Hf; now left).
  destruct (next_cont pl cs Hn Hsep Hcut Hpair k a b w Hw ltac:(lra) Hb Ha) as (Cb & Pb & Bb & E1 & E2). cbv zeta in *. cbn [spPos spStart orb]. set (s := splitAtPoint w (vert pl k 1) (seg pl k b)) in *.
  rewrite map_app, sumR_app. rewrite (IH b (splitVertex s) Cb Hb Hs (fun t H => Ht t (or_intror H))).
  assert (El : last (b :: ts) a = last ts b). { clear. destruct ts as [|c l]; [reflexivity|]. change (last (b :: c :: l) a) with (last (c :: l) a). revert c. induction l as [|d l IH]; intros c; [reflexivity|apply (IH d)]. }
  assert (Hlast : b <= last ts b <= 1).
  { split; [apply (last_le ts b b Hs); now left|]. destruct (last_In b ts) as [E|E]; [rewrite <- E; lra|]. apply Ht. now right. }
  rewrite El, (Madd k a b (last ts b)) by (try lra; auto; destruct Hw; lra). f_equal.
  rewrite E1, E2, prec_R. destruct (fuzzyEqual (seg pl k a) (seg pl k b) (1 / 100000)) eqn:Ef.
  - cbn [map]. rewrite sumR_nil. destruct (Hpair _ _ _ Ha Hb) as [E|[F _]]; cbn [spPos] in *; [|apply far_fuzzy in F; congruence].
    apply segPath_inj in E; [|apply (vert_small pl Hn Hsmall)|apply far_ne, (vert_far pl cs Hn Hsep)|destruct Hw; lra|auto]. subst b. symmetry. apply M_zero; [auto|lra].
  - cbn [map]. rewrite sumR_cons, sumR_nil. unfold muL, traceOf. cbn [segsOf openSegs map]. rewrite sumR_cons, sumR_nil.
    assert (a <> b) as Nab. { intros ->. apply far_fuzzy, far_ne in Ef. now apply Ef. }
    rewrite (Mpiece k a b) by (try lra; auto; destruct Hw; lra). lra.
Qed.

Lemma muL_chain k us e : forall j i w, pos us = pos (vert pl k (i + j)) ->
  muL (w :: map (vert pl k) (seq i j) ++ [us; e]) = mu (seg3 (w, vert pl k i)) + sumR (map (fun x => mu (seg3 (vert pl k x, vert pl k (S x)))) (seq i j)) + mu (seg3 (us, e)).
Proof.
  induction j as [|j IH]; intros i w Eu.
  - cbn [seq map app]. unfold muL, traceOf. cbn [segsOf openSegs map]. rewrite !sumR_cons, !sumR_nil. rewrite Nat.add_0_r in Eu.
    replace (seg3 (w, us)) with (seg3 (w, vert pl k i)) by (unfold seg3; cbn [fst snd]; now rewrite Eu). lra.
  - cbn [seq map app]. assert (E : forall v l, muL (w :: v :: l) = mu (seg3 (w, v)) + muL (v :: l)) by (intros v l; unfold muL, traceOf; cbn [segsOf openSegs map]; now rewrite sumR_cons).
    rewrite E, IH by (now replace (S i + j)%nat with (i + S j)%nat by lia). rewrite sumR_cons. lra.
Qed.

(** the stretches of all segments together have the quantity of the whole polyline *)
Theorem cover : (exists k c, In (k, c) cs) ->
  sumR (map muL (flat_map (stretches pl cs) (seq 0 n))) = sumR (map (fun k => M k 0 1) (seq 0 n)).
Proof.
  intros (k0 & c0 & H0).
  destruct (finite_choice (fun k ts => sortedCuts pl cs k = map (fun t => mkSP (seg pl k t) false) ts /\ StronglySorted Rle ts /\
    (forall t, In t ts -> 0 <= t <= 1 /\ In (k, mkSP (seg pl k t) false) cs)) [] n) as (ps & Hps).
  { intros k _. apply (cut_params pl cs Hn Hsmall Hsep Hcut). }
  set (C := fun k => match ps k with [] => false | _ :: _ => true end).
  set (g := fun k => match ps k with [] => M k 0 1 | b :: _ => M k 0 b end).
  set (h := fun k => match ps k with [] => 0 | a :: _ => M k a 1 end).
  assert (EC : forall k, (k < n)%nat -> match sortedCuts pl cs k with [] => false | _ :: _ => true end = C k).
  { intros k Hk. destruct (Hps k Hk) as (E & _). unfold C. rewrite E. destruct (ps k); reflexivity. }
  assert (Hone : forall k, (k < n)%nat -> sumR (map muL (stretches pl cs k)) = h k + gapSum n C g k).
  { intros k Hk. destruct (Hps k Hk) as (Es & Hs & Ht). unfold stretches, h, gapSum. rewrite Nat.mod_small by auto. rewrite Es. unfold C at 1. destruct (ps k) as [|a ts] eqn:Ep; [cbn; lra|].
    cbn [map]. destruct (Ht a (or_introl eq_refl)) as [Ha01 Ha]. destruct (first_cont pl cs Hn Hsmall Hsep Hcut k a Ha Ha01) as (Ca & _). cbv zeta in Ca. cbn [spPos].
    rewrite map_app, sumR_app, (between_mu k Hk ts a _ Ca Ha Hs (fun t H => Ht t (or_intror H))).
    rewrite (last_map (fun t => mkSP (seg pl k t) false) ts a). set (z := last ts a) in *. assert (Hz : In z (a :: ts)) by apply last_In. destruct (Ht z Hz) as [Hz01 Hzc].
    assert (Haz : a <= z) by (apply (last_le ts a a Hs); now left). pose proof (param_lt pl cs Hn Hsep k z Hz01 Hzc) as Lz.
    rewrite (Madd k a z 1) by (auto; lra). destruct (first_cont pl cs Hn Hsmall Hsep Hcut k z Hzc Hz01) as (Cz & _). cbv zeta in Cz.
    unfold onward. cbn [spStart spPos]. fold n. unfold gapOf.
    assert (Eff : find (fun d => match sortedCuts pl cs ((k + d) mod n) with [] => false | _ :: _ => true end) (seq 1 n) = find (fun d => C ((k + d) mod n)) (seq 1 n)).
    { apply find_ext. intros d. apply EC. apply Nat.mod_upper_bound. lia. }
    rewrite Eff. clear Eff. destruct (find_least (fun d => C ((k + d) mod n)) n 1) as (d & Ed & Hd & HPd & Hfd).
    { exists n. split; [apply in_seq; lia|]. rewrite mod_shift by lia. rewrite Nat.mod_small by auto. unfold C. now rewrite Ep. }
    rewrite Ed. set (k' := ((k + d) mod n)%nat) in *. assert (Hk' : (k' < n)%nat) by (apply Nat.mod_upper_bound; lia).
    destruct (Hps k' Hk') as (Es' & Hs' & Ht'). cbv beta in HPd. fold k' in HPd. unfold C in HPd. rewrite Es'. destruct (ps k') as [|b ts'] eqn:Ep'; [discriminate|]. cbn [map].
    destruct (Ht' b (or_introl eq_refl)) as [Hb01 Hb]. destruct (first_cont pl cs Hn Hsmall Hsep Hcut k' b Hb Hb01) as (_ & Pb & Bb & Eb1 & Eb2). cbv zeta in Pb, Bb, Eb1, Eb2. cbn [spPos].
    pose proof (param_lt pl cs Hn Hsep k' b Hb01 Hb) as Lb.
    assert (Ev0 : vert pl k' 0 = vert pl k d) by (unfold k'; rewrite (vert_mod pl Hn), vert_shift, Nat.add_0_r; reflexivity).
    assert (Ev1 : vert pl k' 1 = vert pl k (S d)) by (unfold k'; rewrite (vert_mod pl Hn), vert_shift, Nat.add_1_r; reflexivity).
    rewrite sumR_cons, sumR_nil. cbn [app]. rewrite <- Ev0, <- Ev1. set (us := updatedStart _) in *.
    rewrite (muL_chain k us _ (d - 1) 1) by (rewrite Eb1, Ev0; f_equal; f_equal; lia).
    destruct Cz as (_ & Pz & Bz & _). rewrite (Mpiece k z 1 _ _ Hk ltac:(lra) ltac:(lra) ltac:(lra) Pz Bz).
    rewrite (Mpiece k' 0 b us (mkVtx (seg pl k' b) t0) Hk' ltac:(lra) ltac:(lra) ltac:(lra)).
    2:{ intros s. rewrite <- (Pb s). apply segPath_end. cbn [pos]. symmetry. exact Eb2. }
    2:{ exact Bb. }
    replace d with (S (d - 1)) at 2 by lia. rewrite seq_S, map_app, sumR_app. cbn [map]. rewrite sumR_cons, sumR_nil.
    replace ((k + (1 + (d - 1))) mod n)%nat with k' by (unfold k'; do 2 f_equal; lia).
    assert (Eg : g k' = M k' 0 b) by (unfold g; now rewrite Ep'). rewrite Eg.
    assert (Em : sumR (map (fun x => mu (seg3 (vert pl k x, vert pl k (S x)))) (seq 1 (d - 1))) = sumR (map (fun e => g ((k + e) mod n)) (seq 1 (d - 1)))); [|lra].
    apply sum_ext. intros e He. apply in_seq in He. specialize (Hfd e ltac:(lia)). cbv beta in Hfd. set (j := ((k + e) mod n)%nat) in *. assert (Hj : (j < n)%nat) by (apply Nat.mod_upper_bound; lia).
    unfold g. unfold C in Hfd. destruct (ps j) eqn:Epj; [|discriminate].
    assert (Ej0 : vert pl j 0 = vert pl k e) by (unfold j; rewrite (vert_mod pl Hn), vert_shift, Nat.add_0_r; reflexivity).
    assert (Ej1 : vert pl j 1 = vert pl k (S e)) by (unfold j; rewrite (vert_mod pl Hn), vert_shift, Nat.add_1_r; reflexivity).
    apply (Mpiece j 0 1); auto; try lra; [rewrite Ej0, Ej1; now apply piece_whole|apply (vert_small pl Hn Hsmall)]. }
  rewrite sum_flat_map. rewrite (sum_ext _ (fun k => h k + gapSum n C g k)) by (intros k Hk; apply in_seq in Hk; apply Hone; lia).
  rewrite sum_add, around; [|lia|].
  - rewrite <- sum_add. apply sum_ext. intros k Hk. apply in_seq in Hk. destruct (Hps k ltac:(lia)) as (_ & _ & Ht). unfold h, g. destruct (ps k) as [|a ts]; [lra|].
    destruct (Ht a (or_introl eq_refl)) as [Ha _]. rewrite (Madd k 0 a 1) by (try lra; lia). lra.
  - destruct (Hcut k0 c0 H0) as (Hk0 & _). exists k0. split; [auto|]. rewrite <- (EC k0 Hk0). apply (sortedCuts_In pl) in H0. destruct (sortedCuts pl cs k0); [destruct H0|reflexivity].
Qed.
End Cover.
