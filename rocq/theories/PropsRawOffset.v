(** * The raw offset polyline always exists (any scalar implementation) *)
From Coq Require Import ZArith Lia List Bool Arith.
From Verif Require Import Base Num MathUtils PlineSegment SpatialIndex Polyline Intersects Combine Offset PropsCoincident PropsSlices PropsOffsetSlices.
Import ListNotations.

Section Raw.
Context {RO : RealOps} {SL : StdLib}.

(** [r'] extends the non-empty [r] by at most [k] vertices, with the same flag *)
Definition grows (k : nat) (r r' : polyline) : Prop :=
  isClosed r' = isClosed r /\ (1 <= length (vertexes r'))%nat /\ (length (vertexes r) <= length (vertexes r') <= length (vertexes r) + k)%nat.

Lemma ne_len (r : polyline) : (1 <= length (vertexes r))%nat -> vertexes r <> [].
Proof. intros H E. rewrite E in H. cbn in H. lia. Qed.

Lemma add_grows r v : (1 <= length (vertexes r))%nat -> grows 1 r (addOrReplaceIfSamePos r v).
Proof.
  intros H. destruct (addOrReplace_cases r v (ne_len r H)) as [[E|(l & x & E1 & _ & E2)] Hc]; (split; [exact Hc|]).
  - rewrite E, app_length. cbn [length]. lia.
  - rewrite E1, E2, !app_length. cbn [length]. lia.
Qed.

Lemma grows_trans a b r0 r1 r2 : grows a r0 r1 -> grows b r1 r2 -> grows (a + b) r0 r2.
Proof. unfold grows. intros (E1 & L1 & H1) (E2 & L2 & H2). split; [congruence|]. lia. Qed.

Lemma grows_le a b r r' : grows a r r' -> (a <= b)%nat -> grows b r r'.
Proof. unfold grows. intros (E & L & H) Hle. split; [auto|]. lia. Qed.

Lemma add2_grows r v w : (1 <= length (vertexes r))%nat -> grows 2 r (addOrReplaceIfSamePos (addOrReplaceIfSamePos r v) w).
Proof.
  intros H. pose proof (add_grows r v H) as G1. pose proof (add_grows _ w (proj1 (proj2 G1))) as G2. exact (grows_trans 1 1 _ _ _ G1 G2).
Qed.

Lemma trimPrev_ok c v2 p r : (1 <= length (vertexes r))%nat -> exists r', trimPrev c v2 p r = Ok r' /\ grows 0 r r'.
Proof.
  intros H. destruct (get_last r (ne_len r H)) as (l & w & E & El & Es). unfold trimPrev. rewrite El. cbn [bind].
  assert (G0 : grows 0 r r) by (split; [reflexivity|lia]).
  destruct (_ && _); [|eauto]. destruct (Bool.eqb _ _); [|eauto]. rewrite Es. eexists. split; [reflexivity|]. split; [reflexivity|]. cbn [vertexes]. rewrite E, !app_length. cbn [length]. lia.
Qed.

Lemma join_ok ccw s1 s2 r : (1 <= length (vertexes r))%nat -> exists r', joinSegs ccw s1 s2 r = Ok r' /\ grows 2 r r'.
Proof.
  intros H.
  assert (A1 : forall v, grows 2 r (addOrReplaceIfSamePos r v)) by (intros v; apply (grows_le 1); [now apply add_grows|lia]).
  assert (A2 : forall v w, grows 2 r (addOrReplaceIfSamePos (addOrReplaceIfSamePos r v) w)) by (intros; now apply add2_grows).
  assert (T : forall c v2 p w, exists r', (let! r0 := trimPrev c v2 p r in Ok (addOrReplaceIfSamePos r0 w)) = Ok r' /\ grows 2 r r').
  { intros c v2 p w. destruct (trimPrev_ok c v2 p r H) as (r0 & -> & G0). cbn [bind]. eexists. split; [reflexivity|].
    pose proof (add_grows r0 w (proj1 (proj2 G0))) as G1. apply (grows_le 1); [|lia]. exact (grows_trans 0 1 _ _ _ G0 G1). }
  unfold joinSegs. destruct (bulgeIsZero (osV1 s1)), (bulgeIsZero (osV1 s2)); cbn [andb].
  - eexists. split; [reflexivity|]. unfold lineToLineJoin, connectUsingArc. destruct (_ || _); [auto|]. destruct (intrLineSeg2LineSeg2 _ _ _ _); auto. destruct (_ && _); auto.
  - eexists. split; [reflexivity|]. unfold lineToArcJoin, connectUsingArc.
    match goal with |- context [match intrLineSeg2Circle2 ?a ?b ?c ?d with _ => _ end] => destruct (intrLineSeg2Circle2 a b c d) as [|t|t t'] end; [auto| |destruct (tltb _ _)];
      repeat match goal with |- grows _ _ (if ?b then _ else _) => destruct b end; auto.
  - unfold arcToLineJoin, connectUsingArc.
    match goal with |- context [match intrLineSeg2Circle2 ?a ?b ?c ?d with _ => _ end] => destruct (intrLineSeg2Circle2 a b c d) as [|t|t t'] end; [eauto| |destruct (tltb _ _)];
      match goal with |- context [if ?b then bind _ _ else _] => destruct b end; eauto.
  - unfold arcToArcJoin, connectUsingArc.
    match goal with |- context [match intrCircle2Circle2 ?a ?b ?c ?d with _ => _ end] => destruct (intrCircle2Circle2 a b c d) as [|p|p q|] end; [eauto| |destruct (tltb _ _)|eauto];
      match goal with |- context [if ?b then bind _ _ else _] => destruct b end; eauto.
Qed.

Lemma joinAll_ok ccw rest : forall prev r, (1 <= length (vertexes r))%nat -> exists r', joinAll ccw prev rest r = Ok r' /\ grows (2 * length rest) r r'.
Proof.
  induction rest as [|s rest IH]; intros prev r H.
  - exists r. split; [reflexivity|]. split; [reflexivity|]. cbn. lia.
  - cbn [joinAll]. destruct (join_ok ccw prev s r H) as (r1 & -> & G1). cbn [bind]. destruct (IH s r1 (proj1 (proj2 G1))) as (r2 & -> & G2). exists r2. split; [reflexivity|].
    pose proof (grows_trans _ _ _ _ _ G1 G2) as G. cbn [length]. eapply grows_le; [exact G|lia].
Qed.

Lemma closeRaw_ok ccw replaced sl sf r : (2 <= length (vertexes r))%nat ->
  exists r', closeRaw ccw replaced sl sf r = Ok r' /\ isClosed r' = isClosed r /\ (length (vertexes r') <= S (length (vertexes r)))%nat.
Proof.
  intros H. destruct (get_last r (ne_len r ltac:(lia))) as (l & w & E & El & Es). unfold closeRaw. rewrite El. cbn [bind].
  destruct (join_ok ccw sl sf (mkPline false [w]) ltac:(cbn; lia)) as (cl & -> & (Gc & G1 & G2)). cbn [bind vertexes length] in *.
  destruct (vertexes cl) as [|c0 ct] eqn:Ecl; [cbn in G1; lia|]. rewrite vget_at by (rewrite Ecl; cbn; lia). cbn [bind]. rewrite Es. cbn [bind isClosed vertexes tl].
  set (vs := (l ++ [at_ cl 0]) ++ ct).
  assert (Lv : length vs = (length (vertexes r) + length ct)%nat) by (unfold vs; rewrite E, !app_length; cbn [length]; lia).
  assert (exists vs', popBack (mkPline (isClosed r) vs) = Ok (mkPline (isClosed r) vs') /\ length vs' = (length vs - 1)%nat) as (vs' & -> & Lv').
  { unfold popBack. cbn [vertexes isClosed]. destruct (rev vs) as [|x t] eqn:Er; apply (f_equal (@length _)) in Er; rewrite rev_length in Er; cbn [length] in Er; [lia|]. eexists. split; [reflexivity|]. rewrite rev_length. lia. }
  cbn [bind].
  match goal with |- context [bind ?m _] => assert (exists r2, m = Ok r2 /\ isClosed r2 = isClosed r /\ length (vertexes r2) = length vs') as (r2 & -> & Hc2 & L2) end.
  { destruct (negb replaced); [|eexists; split; [reflexivity|]; cbn; auto].
    destruct (get_last cl (ne_len cl ltac:(rewrite Ecl; cbn; lia))) as (? & w2 & _ & -> & _). cbn [bind].
    rewrite vget_at by (cbn [vertexes]; lia). cbn [bind vertexes isClosed].
    destruct (bulgeIsZero _).
    - rewrite rset_ok by lia. cbn [bind]. eexists. split; [reflexivity|]. cbn [isClosed vertexes]. rewrite upd_length. auto.
    - unfold size. cbn [vertexes]. destruct (Nat.ltb_spec 1 (length vs')); [|eexists; split; [reflexivity|]; cbn; auto].
      rewrite vget_at by (cbn [vertexes]; lia). cbn [bind]. rewrite rset_ok by lia. cbn [bind]. eexists. split; [reflexivity|]. cbn [isClosed vertexes]. rewrite upd_length. auto. }
  cbn [bind]. unfold size. cbn [length] in *. destruct (Nat.ltb_spec 1 (length (vertexes r2))); [|eexists; split; [reflexivity|]; split; [auto|lia]].
  rewrite !vget_at by lia. cbn [bind]. destruct (fuzzyEqual _ _ _); eexists; (split; [reflexivity|]); cbn [isClosed vertexes]; (split; [auto|]); [|lia].
  destruct (vertexes r2); cbn [tl length] in *; lia.
Qed.

Lemma mmap_len {A B} (f : A -> res B) l : (forall a, In a l -> exists b, f a = Ok b) -> exists l', mmap f l = Ok l' /\ length l' = length l.
Proof.
  induction l as [|a l IH]; intros H; [exists []; auto|]. cbn [mmap]. destruct (H a (or_introl eq_refl)) as (b & ->). cbn [bind].
  destruct (IH (fun x Hx => H x (or_intror Hx))) as (l' & -> & L). cbn [bind]. eexists. split; [reflexivity|]. cbn [length]. lia.
Qed.

Lemma untrimmed_ok pl offset : (2 <= length (vertexes pl))%nat -> exists segs, createUntrimmedOffsetSegments pl offset = Ok segs /\
  length segs = if isClosed pl then length (vertexes pl) else (length (vertexes pl) - 1)%nat.
Proof.
  intros H. unfold createUntrimmedOffsetSegments, size.
  destruct (mmap_len (fun i => let! v1 := vget pl (i - 1) in let! v2 := vget pl i in Ok (offsetSegment offset v1 v2)) (seq 1 (length (vertexes pl) - 1))) as (l & -> & L).
  { intros i Hi. apply in_seq in Hi. rewrite (vget_at pl (i - 1)) by lia. cbn [bind]. rewrite (vget_at pl i) by lia. cbn [bind]. eauto. }
  rewrite seq_length in L. cbn [bind]. destruct (isClosed pl); [|eauto].
  destruct (get_last pl (ne_len pl ltac:(lia))) as (? & w & _ & -> & _). cbn [bind]. rewrite vget_at by lia. cbn [bind]. eexists. split; [reflexivity|]. rewrite app_length. cbn [length]. lia.
Qed.

(** createRawOffsetPline always returns a polyline: empty, or of at least two and at most twice as many vertices as the input, with the closed flag of the input *)
Lemma raw_ok pl offset : exists raw, createRawOffsetPline pl offset = Ok raw /\ (vertexes raw <> [] -> isClosed raw = isClosed pl) /\
  length (vertexes raw) <> 1%nat /\ (length (vertexes raw) <= 2 * length (vertexes pl))%nat.
Proof.
  unfold createRawOffsetPline, size.
  assert (E0 : forall b : bool, (vertexes (mkPline b []) <> [] -> isClosed (mkPline b []) = isClosed pl) /\ length (vertexes (mkPline b [])) <> 1%nat /\ (length (vertexes (mkPline b [])) <= 2 * length (vertexes pl))%nat).
  { intros b. cbn [vertexes length]. split; [intros H; exfalso; now apply H|]. split; [discriminate|apply Nat.le_0_l]. }
  destruct (Nat.ltb_spec (length (vertexes pl)) 2) as [|Hn]; [eexists; split; [reflexivity|]; apply E0|].
  destruct (untrimmed_ok pl offset Hn) as (segs & -> & Ls). cbn [bind].
  destruct segs as [|s0 rest]; [eexists; split; [reflexivity|]; apply E0|].
  destruct (_ && _); [eexists; split; [reflexivity|]; apply E0|].
  set (r0 := mkPline (isClosed pl) [osV1 s0]).
  match goal with |- context [bind ?m _] => assert (exists r1 b, m = Ok (r1, b) /\ grows (2 * length rest) r0 r1) as (r1 & b & -> & (Gc & G1 & G2)) end.
  { destruct rest as [|s1 rest]; [do 2 eexists; split; [reflexivity|]; split; [reflexivity|]; cbn; lia|].
    destruct (join_ok (tltb offset t0) s0 s1 r0 ltac:(cbn; lia)) as (ra & -> & Ga). cbn [bind].
    destruct (joinAll_ok (tltb offset t0) rest s1 ra (proj1 (proj2 Ga))) as (rb & -> & Gb). cbn [bind]. do 2 eexists. split; [reflexivity|].
    eapply grows_le; [exact (grows_trans _ _ _ _ _ Ga Gb)|cbn [length]; lia]. }
  cbn [bind vertexes r0 isClosed length] in *.
  assert (Fin : forall r2, isClosed r2 = isClosed pl -> (length (vertexes r2) <= 2 * length (vertexes pl))%nat ->
    exists raw, (let! r := Ok r2 in Ok (if (length (vertexes r) =? 1)%nat then mkPline (isClosed r) [] else r)) = Ok raw /\ (vertexes raw <> [] -> isClosed raw = isClosed pl) /\
      length (vertexes raw) <> 1%nat /\ (length (vertexes raw) <= 2 * length (vertexes pl))%nat).
  { intros r2 Hc Hl. cbn [bind]. destruct (Nat.eqb_spec (length (vertexes r2)) 1); eexists; (split; [reflexivity|]); [apply E0|auto]. }
  destruct (isClosed pl && (1 <? length (vertexes r1))%nat) eqn:Ec.
  - apply andb_true_iff in Ec. destruct Ec as [Ec1 Ec2]. apply Nat.ltb_lt in Ec2. rewrite Ec1 in Ls.
    destruct (closeRaw_ok (tltb offset t0) b (last rest s0) s0 r1 ltac:(lia)) as (r2 & -> & Hc2 & L2). apply Fin; [congruence|lia].
  - destruct (add_grows r1 (osV2 (last rest s0)) G1) as (Ha & _ & Hb). apply Fin; [congruence|].
    destruct (isClosed pl); lia.
Qed.
End Raw.
