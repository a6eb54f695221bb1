(** * The raw offset of an open straight polyline, segment by segment *)
From Coq Require Import ZArith Reals Lra Lia List Bool Arith.
From Verif Require Import Base Num MathUtils PlineSegment SpatialIndex Polyline Intersects Combine Offset RGeom Spec PropsMath ArcGeom Polar PropsSegment PropsClosest PropsIntr PropsPlineIntr PropsPolyline Turning PropsWinding PropsRegion PropsCoincident PropsSlices PropsPieces PropsTrace PropsOffset PropsOffsetSlices PropsOffsetSegs PropsRawOffset PropsJoins PropsRawStructure PropsRawGeom PropsOpenTrace PropsOpenCuts.
Import ListNotations.
Open Scope R_scope.

(** ** Specification *)
Section Tags.
Variables (pl : polyline) (d : R).
Notation n := (length (vertexes pl)).
(** how much is trimmed off the start and off the end of the offset of edge j: nothing at the ends of the polyline *)
Definition trimS (j : nat) : R := match j with O => 0 | S i => trimC pl d i end.
Definition trimE (j : nat) : R := if (S (S j) <? n)%nat then trimC pl d j else 0.
Definition startO (T : tag) : vec := match T with Off j => edgePt pl d j (trimS j) | Arc j | Link j => edgePt pl d j (len pl j) end.
Definition endO (T : tag) : vec := match T with Off j => edgePt pl d j (len pl j - trimE j) | Arc j | Link j => edgePt pl d (S j) 0 end.
Definition startsO (T : tag) (v : vertex) : Prop := pos v = startO T /\
  match T with
  | Off _ | Link _ => isLine v
  | Arc j => ~ isLine v /\ exists th, rot (pt pl (S j)) th (edgePt pl d j (len pl j)) = edgePt pl d (S j) 0 /\ 0 < Rabs th < PI /\ (0 < th <-> 0 < turn (pt pl j) (pt pl (S j)) (pt pl (S (S j)))) /\ sweep (bulge v) = th
  end.
Definition openTags : list tag := Off 0 :: flat_map (cornerTags pl d) (seq 0 (n - 2)).
End Tags.

(** straight open polyline, clear corners, no raw segment shorter than 1e-5 *)
Record clearOpen (pl : polyline) (d : R) : Prop := {
  co_open : isClosed pl = false;
  co_size : (2 <= length (vertexes pl))%nat;
  co_lines : forall v, In v (vertexes pl) -> isLine v;
  co_edges : forall j, (S j < length (vertexes pl))%nat -> far (pt pl j) (pt pl (S j));
  co_corners : forall j, (S (S j) < length (vertexes pl))%nat -> clearCorner d (pt pl j) (pt pl (S j)) (pt pl (S (S j)));
  co_off : forall j, (S j < length (vertexes pl))%nat -> far (startO pl d (Off j)) (endO pl d (Off j));
  co_join : forall j, (S (S j) < length (vertexes pl))%nat -> met pl d j = false -> far (startO pl d (Arc j)) (endO pl d (Arc j)) }.

(** ** Proofs *)
Lemma Forall2_weaken {A B} (R R' : A -> B -> Prop) l m : (forall a b, In a l -> R a b -> R' a b) -> Forall2 R l m -> Forall2 R' l m.
Proof. intros H F. induction F as [|a b l m h F IH]; constructor; [apply H; auto; now left|]. apply IH. intros x y Hx. apply H. now right. Qed.

Section Struct.
Variables (pl : polyline) (d : R).
Hypothesis HC : clearOpen pl d.
Notation n := (length (vertexes pl)).
Notation P := (pt pl).
Notation E := (edgePt pl d).
Notation V := (fun j => vert pl j 0).

Lemma o2 : (2 <= n)%nat. Proof. apply (co_size pl d HC). Qed.

Lemma oV_line j : isLine (V j).
Proof. apply (co_lines pl d HC). unfold vert, at_. apply nth_In, Nat.mod_upper_bound. pose proof o2. lia. Qed.

Lemma oP_ne j : (S j < n)%nat -> P j <> P (S j).
Proof. intros Hj. now apply far_ne, (co_edges pl d HC). Qed.

Lemma oturn_ne j : (S (S j) < n)%nat -> turn (P j) (P (S j)) (P (S (S j))) <> 0.
Proof. intros Hj. destruct (co_corners pl d HC j Hj) as [H _]. intros Z. rewrite Z, Rabs_R0 in H. lra. Qed.

Lemma starts_O j T v : In T (cornerTags pl d j) -> starts pl d T v -> startsO pl d T v.
Proof.
  intros HT [H1 H2]. split; [|exact H2]. rewrite H1. unfold cornerTags in HT. assert (Q : startPt pl d (Off (S j)) = startO pl d (Off (S j))) by (cbn [startPt startO trimS]; rewrite before_S1; [reflexivity|pose proof o2; lia]).
  destruct (met pl d j); [|destruct (Rltb (back pl d j) 0)]; cbn [In] in HT; (destruct HT as [<-|HT]; [|try destruct HT as [<-|HT]]); try contradiction; auto.
Qed.

Lemma corner_stepO j : (S (S j) < n)%nat -> exists bs, Forall2 (startsO pl d) (cornerTags pl d j) bs /\
  forall r l w, vertexes r = l ++ [w] -> far (pos w) (endO pl d (Off j)) -> joinSegs (Rltb d 0) (ofs pl d j) (ofs pl d (S j)) r = Ok (mkPline (isClosed r) (l ++ w :: bs)).
Proof.
  intros Hj. destruct (corner_step1 pl d ltac:(pose proof o2; lia) j (oV_line j) (oV_line (S j)) (oP_ne j ltac:(lia)) (oP_ne (S j) Hj) (co_corners pl d HC j Hj) (co_join pl d HC j Hj)) as (bs & F & H).
  exists bs. split.
  - revert F. apply Forall2_weaken. intros T v HT. now apply (starts_O j).
  - intros r l w Ev Hf. apply H; auto. unfold endO, trimE in Hf. destruct (Nat.ltb_spec (S (S j)) n); [exact Hf|lia].
Qed.

Lemma joinsO m : forall j, (S (j + m) < n)%nat -> exists bss, Forall2 (startsO pl d) (flat_map (cornerTags pl d) (seq j m)) bss /\
  forall r l w, vertexes r = l ++ [w] -> far (pos w) (endO pl d (Off j)) -> joinAll (Rltb d 0) (ofs pl d j) (map (ofs pl d) (seq (S j) m)) r = Ok (mkPline (isClosed r) (l ++ w :: bss)).
Proof.
  induction m as [|m IH]; intros j Hj.
  - exists []. split; [constructor|]. intros r l w Ev _. cbn [seq map joinAll]. rewrite <- Ev. destruct r; reflexivity.
  - destruct (corner_stepO j ltac:(lia)) as (bs & Hb & Hjn). destruct (IH (S j) ltac:(lia)) as (bss & Hbs & Hjs). exists (bs ++ bss). split; [cbn [seq flat_map]; now apply Forall2_app|].
    intros r l w Ev Hf. cbn [seq map joinAll]. rewrite (Hjn r l w Ev Hf). cbn [bind].
    destruct (cornerTags_last pl d j) as (ts & Ets & _). rewrite Ets in Hb. apply Forall2_app_inv_l in Hb. destruct Hb as (b0 & b1 & _ & H1 & ->). inversion H1 as [|? u ? ? Hu H2]; subst. inversion H2; subst.
    rewrite (Hjs _ (l ++ w :: b0) u); [cbn [isClosed]; cbn [app]; rewrite <- !app_assoc; cbn [app]; rewrite <- ?app_assoc; reflexivity|cbn [vertexes]; rewrite <- !app_assoc; reflexivity|].
    destruct Hu as [-> _]. apply (co_off pl d HC (S j)). lia.
Qed.

Lemma pathSegs_seqO : pathSegs pl = map (fun k => (V k, V (S k))) (seq 0 (n - 1)).
Proof.
  pose proof o2 as H2. pose proof (co_open pl d HC) as Hc. unfold pathSegs, vert, at_. rewrite Hc. destruct (vertexes pl) as [|v [|w vs]] eqn:Ev; [cbn in H2; lia|cbn in H2; lia|].
  rewrite (openSegs_seq vdflt), app_nil_r. replace (length (v :: w :: vs) - 1)%nat with (length (w :: vs)) by (cbn [length]; lia).
  apply map_ext_in. intros i Hi. apply in_seq in Hi. cbn [length] in Hi. rewrite !Nat.add_0_r, !Nat.mod_small by (cbn [length]; lia). reflexivity.
Qed.

Lemma tags_end : exists ts, openTags pl d = ts ++ [Off (n - 2)].
Proof.
  unfold openTags. pose proof o2. destruct (n - 2)%nat as [|m] eqn:Em; [exists []; reflexivity|]. rewrite seq_S, flat_map_app. cbn [flat_map Nat.add]. rewrite app_nil_r. destruct (cornerTags_last pl d m) as (ts & -> & _).
  exists (Off 0 :: flat_map (cornerTags pl d) (seq 0 m) ++ ts). cbn [app]. now rewrite <- app_assoc.
Qed.

Theorem open_raw_structure : exists vs z, createRawOffsetPline pl d = Ok (mkPline false (vs ++ [z])) /\ Forall2 (startsO pl d) (openTags pl d) vs /\ pos z = endO pl d (Off (n - 2)) /\ isLine z.
Proof.
  pose proof o2 as H2. unfold createRawOffsetPline, size. destruct (Nat.ltb_spec n 2); [lia|].
  match goal with |- context [bind ?m _] => assert (E' : m = Ok (map (ofs pl d) (seq 0 (n - 1)))) end.
  { etransitivity; [apply C39_one_per_segment; lia|]. rewrite pathSegs_seqO, map_map. reflexivity. }
  rewrite E'. cbn [bind]. clear E'. assert (Et0 : tltb d t0 = Rltb d 0) by (rcbn; reflexivity). rewrite Et0, (co_open pl d HC). cbn [andb].
  set (w0 := osV1 (ofs pl d 0)). assert (E0 := ofs_eq1 pl d 0 (oV_line 0) (oP_ne 0 ltac:(lia))).
  assert (Hw0 : startsO pl d (Off 0) w0). { unfold w0. rewrite E0. split; [reflexivity|exact (oV_line 0)]. }
  assert (EL := ofs_eq1 pl d (n - 2) (oV_line (n - 2)) (oP_ne (n - 2) ltac:(lia))).
  assert (Lz : isLine (osV2 (ofs pl d (n - 2)))) by (rewrite EL; exact (oV_line (S (n - 2)))).
  assert (Pz : pos (osV2 (ofs pl d (n - 2))) = endO pl d (Off (n - 2))).
  { rewrite EL. cbn [osV2 pos endO]. unfold trimE. destruct (Nat.ltb_spec (S (S (n - 2))) n); [lia|]. now rewrite Rminus_0_r. }
  assert (Fin : forall vs u, startsO pl d (Off (n - 2)) u -> addOrReplaceIfSamePos (mkPline false (vs ++ [u])) (osV2 (ofs pl d (n - 2))) = mkPline false ((vs ++ [u]) ++ [osV2 (ofs pl d (n - 2))])).
  { intros vs u [Pu _]. rewrite (addOrReplace_new _ vs u) by (try reflexivity; apply far_not_fuzzy; rewrite Pu, Pz; apply (co_off pl d HC); lia). cbn [isClosed]. now rewrite <- app_assoc. }
  destruct (n - 1)%nat as [|[|m]] eqn:En; [lia| |].
  - (* a single segment *)
    cbn [seq map length Nat.eqb]. assert (collapsedArc (ofs pl d 0) = false) as -> by (rewrite E0; reflexivity). cbn [bind last]. replace (n - 2)%nat with 0%nat in * by lia.
    assert (Eo : openTags pl d = [Off 0]) by (unfold openTags; replace (n - 2)%nat with 0%nat by lia; reflexivity).
    exists [w0], (osV2 (ofs pl d 0)). rewrite Eo. split; [|split; [constructor; [exact Hw0|constructor]|split; [exact Pz|exact Lz]]].
    pose proof (Fin [] w0 Hw0) as EF. cbn [app] in EF. cbn [andb]. fold w0. rewrite EF. reflexivity.
  - change (map (ofs pl d) (seq 0 (S (S m)))) with (ofs pl d 0 :: ofs pl d 1 :: map (ofs pl d) (seq 2 m)). cbn iota beta.
    assert (El1 : (length (ofs pl d 0 :: ofs pl d 1 :: map (ofs pl d) (seq 2 m)) =? 1)%nat = false) by (apply Nat.eqb_neq; cbn [length]; lia). rewrite El1. cbn [andb].
    destruct (corner_stepO 0 ltac:(lia)) as (bs0 & Hb0 & Hj0). destruct (joinsO m 1 ltac:(lia)) as (bss & Hbs & Hjs).
    fold w0. rewrite (Hj0 (mkPline false [w0]) [] w0 eq_refl) by (destruct Hw0 as [-> _]; apply (co_off pl d HC 0); lia). cbn [bind isClosed app vertexes].
    destruct (cornerTags_last pl d 0) as (ts0 & Ets0 & _). pose proof Hb0 as Hb0'. rewrite Ets0 in Hb0'. apply Forall2_app_inv_l in Hb0'. destruct Hb0' as (c0 & c1 & _ & H1 & Ebs0). inversion H1 as [|? u0 ? ? Hu0 H3]; subst c1. inversion H3; subst.
    rewrite (Hjs _ (w0 :: c0) u0); [|reflexivity|destruct Hu0 as [-> _]; apply (co_off pl d HC 1); lia]. cbn [bind isClosed vertexes].
    assert (Elast : last (ofs pl d 1 :: map (ofs pl d) (seq 2 m)) (ofs pl d 0) = ofs pl d (n - 2)).
    { change (ofs pl d 1 :: map (ofs pl d) (seq 2 m)) with (map (ofs pl d) (seq 1 (S m))). rewrite seq_S, map_app. cbn [map]. rewrite last_last. f_equal. lia. }
    rewrite Elast.
    assert (Hall : Forall2 (startsO pl d) (openTags pl d) ((w0 :: c0) ++ u0 :: bss)).
    { unfold openTags. replace (n - 2)%nat with (S m) by lia. cbn [app]. constructor; [exact Hw0|]. cbn [seq flat_map]. replace (c0 ++ u0 :: bss) with ((c0 ++ [u0]) ++ bss) by (rewrite <- app_assoc; reflexivity). apply Forall2_app; auto. }
    assert (Hend : exists l lv, (w0 :: c0) ++ u0 :: bss = l ++ [lv] /\ startsO pl d (Off (n - 2)) lv).
    { pose proof Hall as H4. destruct tags_end as (ts & Ets). rewrite Ets in H4. apply Forall2_app_inv_l in H4. destruct H4 as (x & y & _ & Hy & ->). inversion Hy as [|? lv ? ? Hlv H5]; subst. inversion H5; subst. exists x, lv. auto. }
    destruct Hend as (l & lv & El & Hlv). exists ((w0 :: c0) ++ u0 :: bss), (osV2 (ofs pl d (n - 2))). split; [|split; [exact Hall|split; [exact Pz|exact Lz]]].
    rewrite El, (Fin l lv Hlv). cbn [vertexes]. assert (Es : (length ((l ++ [lv]) ++ [osV2 (ofs pl d (n - 2))]) =? 1)%nat = false) by (apply Nat.eqb_neq; rewrite !app_length; cbn [length]; lia). rewrite Es. reflexivity.
Qed.
End Struct.
