(** * Stitching offset slices of which as many start as end at every point leaves no open end (used by C67) *)
From Coq Require Import ZArith Reals Lra Lia List Bool Arith Permutation.
From Verif Require Import Base Num MathUtils PlineSegment SpatialIndex Polyline Combine Offset StdLaws RGeom Spec PropsPolyline PropsStitch PropsEuler PropsOffsetStitch.
Import ListNotations.
Open Scope R_scope.

Section Close.
Context (slices : list openSlice) (mi : nat) (d : R).
Local Notation sls := (map slPline slices).
Local Notation n := (length slices).
Hypothesis HJ : forall i j, (i < n)%nat -> (j < n)%nat -> joins sls d i j <-> endOf sls i = startOf sls j.
Hypothesis Hbal : forall x, net sls (seq 0 n) x = 0.

Lemma chain_closes initial used cur ch used' first : chain slices mi d initial used cur ch used' -> NoDup used -> (forall i, In i used -> (i < n)%nat) -> In cur used ->
  (forall x, net sls used x = ind x (startOf sls first) - ind x (endOf sls cur)) ->
  NoDup used' /\ (forall i, In i used' -> (i < n)%nat) /\ (forall x, net sls used' x = 0) /\ endOf sls (last ch 0%nat) = startOf sls first.
Proof.
  intros W. induction W as [used cur Hno|used cur c ch used' Hm Hp W IH]; intros Hnd Hu Hcur Hnet.
  - cbn [last]. assert (E : endOf sls cur = startOf sls first).
    { destruct (veq_dec (endOf sls cur) (startOf sls first)) as [|Ne]; [auto|]. exfalso. pose proof (Hu cur Hcur) as Hc.
      destruct (complement sls used Hnd) as (rest & P); [intros i Hi; rewrite map_length; auto|]. rewrite map_length in P.
      assert (E : net sls rest (endOf sls cur) = 1).
      { pose proof (Hbal (endOf sls cur)) as B. unfold net in B. rewrite <- (sumR_perm _ _ (Permutation_map _ P)) in B. fold (net sls (used ++ rest) (endOf sls cur)) in B. rewrite net_app, Hnet, ind_same, (ind_ne _ _ Ne) in B. lra. }
      destruct (net_pos sls rest (endOf sls cur) ltac:(lra)) as (i & Hi & Ei).
      assert (HiN : (i < n)%nat). { assert (In i (seq 0 n)) as H by (apply (Permutation_in _ P), in_or_app; now right). apply in_seq in H. lia. }
      apply (Hno i). split; [auto|]. split; [apply HJ; auto|]. intros Hin.
      pose proof (Permutation_NoDup (Permutation_sym P) (seq_NoDup n 0)) as ND. apply in_split in Hi. destruct Hi as (r1 & r2 & ->).
      apply in_split in Hin. destruct Hin as (u1 & u2 & ->). replace ((u1 ++ i :: u2) ++ r1 ++ i :: r2) with (u1 ++ i :: (u2 ++ r1 ++ i :: r2)) in ND by now rewrite <- app_assoc.
      apply NoDup_remove_2 in ND. apply ND. rewrite !in_app_iff. right. right. right. now left. }
    split; [auto|]. split; [auto|]. split; [intros x; rewrite Hnet, E; lra|auto].
  - destruct Hm as (Hlt & J & Hnu). apply HJ in J; [|auto|auto]. destruct IH as (A & B & C & F).
    + now constructor. + intros i [<-|Hi]; auto. + now left.
    + intros x. rewrite net_cons, Hnet, J. lra.
    + split; [auto|]. split; [auto|]. split; [auto|]. destruct ch as [|y ch]; [inversion W|]. exact F.
Qed.

Lemma chained_closes l used chs : chained slices mi d l used chs -> (forall i, In i l -> (i < n)%nat) -> NoDup used -> (forall i, In i used -> (i < n)%nat) -> (forall x, net sls used x = 0) ->
  List.Forall (fun ch => endOf sls (last ch 0%nat) = startOf sls (hd 0%nat ch)) chs.
Proof.
  induction 1 as [used|i l used chs Hin S IH|i l used ch used' chs Hin W S IH]; intros Hl Hnd Hu Hnet.
  - constructor.
  - apply IH; auto. intros; apply Hl; now right.
  - destruct (chain_closes _ _ _ _ _ i W) as (A & B & C & F); [now constructor|intros k [<-|Hk]; [apply Hl; now left|auto]|now left| |].
    { intros x. rewrite net_cons, Hnet. lra. }
    constructor; [|apply IH; auto; intros; apply Hl; now right]. rewrite F. inversion W; subst; reflexivity.
Qed.
End Close.
