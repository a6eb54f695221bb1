(** * C34: stitching slices into closed polylines *)
From Coq Require Import ZArith Reals Lra Lia List Bool Arith Permutation.
From Verif Require Import Base Num MathUtils PlineSegment SpatialIndex IndexTree IndexQuery PropsIndex Polyline Intersects Combine RGeom Spec PropsPlineIndex PropsFindIntr.
Import ListNotations.
Open Scope R_scope.

(** ** Specification *)
Section Spec.
Context (slices : list polyline) (sel : nat -> list nat -> res (option nat)) (d : R).

Definition sliceAt (i : nat) : polyline := nth i slices (mkPline false []).
Definition startOf (i : nat) : vec := pos (hd vdflt (vertexes (sliceAt i))).
Definition endOf (i : nat) : vec := pos (last (vertexes (sliceAt i)) vdflt).

(** the end of slice i and the start of slice j are at most 2d apart in each coordinate *)
Definition joins (i j : nat) : Prop :=
  Rabs (vx (endOf i) - vx (startOf j)) <= 2 * d /\ Rabs (vy (endOf i) - vy (startOf j)) <= 2 * d.

(** [avail] lists the slices that may follow slice [cur]: those starting at its end that are unused or close the loop *)
Definition available (first : nat) (used : list nat) (cur : nat) (avail : list nat) : Prop :=
  NoDup avail /\ forall c, In c avail <-> (c < length slices)%nat /\ joins cur c /\ (c = first \/ ~ In c used).

(** following the selector from slice [cur]: the chain either closes (its first slice is selected) or is given up (nothing available or
    the selector declines) *)
Inductive walk (first : nat) : list nat -> nat -> list nat -> option (list nat) -> list nat -> Prop :=
| walk_none used cur ch : available first used cur [] -> walk first used cur ch None used
| walk_declined used cur ch avail : available first used cur avail -> avail <> [] -> sel cur avail = Ok None -> walk first used cur ch None used
| walk_closed used cur ch avail : available first used cur avail -> avail <> [] -> sel cur avail = Ok (Some first) -> walk first used cur ch (Some ch) used
| walk_step used cur ch avail c o used' : available first used cur avail -> avail <> [] -> sel cur avail = Ok (Some c) -> c <> first ->
    walk first (c :: used) c (ch ++ [c]) o used' -> walk first used cur ch o used'.

(** starting a chain at every slice not used by an earlier chain *)
Inductive stitched : list nat -> list nat -> list (list nat) -> Prop :=
| st_nil used : stitched [] used []
| st_used i l used chs : In i used -> stitched l used chs -> stitched (i :: l) used chs
| st_open i l used used' chs : ~ In i used -> walk i (i :: used) i [i] None used' -> stitched l used' chs -> stitched (i :: l) used chs
| st_closed i l used ch used' chs : ~ In i used -> walk i (i :: used) i [i] (Some ch) used' -> stitched l used' chs -> stitched (i :: l) used (ch :: chs).

(** the vertices along a chain; the last vertex of each slice is replaced by the first vertex of the next *)
Definition chainVertexes (ch : list nat) : list vertex := flat_map (fun i => removelast (vertexes (sliceAt i))) ch.
Definition closedChain (ch : list nat) : list polyline :=
  if (2 <=? length (chainVertexes ch))%nat then [mkPline true (chainVertexes ch)] else [].

(** the selector picks one of the offered slices or declines *)
Definition okSelector : Prop := forall cur avail, avail <> [] -> exists o, sel cur avail = Ok o /\ forall c, o = Some c -> In c avail.
End Spec.

(** ** Proof *)
Section Proof.
Context (slices : list polyline) (sel : nat -> list nat -> res (option nat)) (d : R).
Hypothesis (Hd : 0 < d) (Hlen : (Z.of_nat (length slices) <= 2 ^ 24)%Z) (Hsl : forall s, In s slices -> (1 <= length (vertexes s))%nat) (Hsel : okSelector sel).

Lemma sliceAt_In i : (i < length slices)%nat -> In (sliceAt slices i) slices /\ nth_error slices i = Some (sliceAt slices i).
Proof. intros H. unfold sliceAt. split; [now apply nth_In|]. now apply nth_error_nth'. Qed.

Lemma sliceAt_len i : (i < length slices)%nat -> (1 <= length (vertexes (sliceAt slices i)))%nat.
Proof. intros H. apply Hsl, sliceAt_In, H. Qed.

Definition sliceBox (s : polyline) : @box ROrd :=
  let p := pos (hd vdflt (vertexes s)) in @mkBox ROrd (Fin (vx p - d)) (Fin (vy p - d)) (Fin (vx p + d)) (Fin (vy p + d)).

Lemma stitchIndex_build : slices <> [] -> stitchIndex slices d = build defaultNodeSize (map sliceBox slices).
Proof.
  intros Hne. unfold stitchIndex, build. rewrite map_length.
  destruct (construct defaultNodeSize (length slices)) as [ix| |]; cbn [bind]; try reflexivity. unfold addAll. rewrite mfold_map.
  rewrite (mfold_ext_in _ (fun ix s => add ix (bMinX (sliceBox s)) (bMinY (sliceBox s)) (bMaxX (sliceBox s)) (bMaxY (sliceBox s)))).
  - match goal with |- context [mfold ?f ?l ix] => destruct (mfold f l ix) end; reflexivity.
  - intros s ix0 Hs. apply Hsl in Hs. rewrite at_get by lia. cbn [bind]. unfold sliceBox, at_. destruct (vertexes s) as [|v l]; [cbn in Hs; lia|]. reflexivity.
Qed.

Lemma index_query : slices <> [] -> exists ix, stitchIndex slices d = Ok ix /\
  forall p : vec, exists l, query defaultNodeSize ix (Fin (vx p - d)) (Fin (vy p - d)) (Fin (vx p + d)) (Fin (vy p + d)) [] = Ok l /\ NoDup l /\
    forall c, In c l <-> (c < length slices)%nat /\ Rabs (vx p - vx (startOf slices c)) <= 2 * d /\ Rabs (vy p - vy (startOf slices c)) <= 2 * d.
Proof.
  intros Hne. rewrite stitchIndex_build by auto.
  assert (exists s0, In s0 slices) as [s0 Hs0] by (destruct slices as [|s l]; [contradiction|exists s; now left]).
  destruct (C01_query_exact_R defaultNodeSize (map sliceBox slices)) as (ix & E & HQ).
  - rewrite map_length. unfold sizesOk, defaultNodeSize. destruct slices as [|s l]; [contradiction|]. cbn [length] in *. repeat split; lia.
  - apply List.Forall_forall. intros b Hb. apply in_map_iff in Hb. destruct Hb as (s & <- & _). do 4 eexists. split; [reflexivity|]. lra.
  - exists (sliceBox s0), (sliceBox s0). split; [now apply in_map|]. split; [now apply in_map|]. cbn [sliceBox bMinX bMaxX ext_ltb]. apply Rltb_spec. lra.
  - exists (sliceBox s0), (sliceBox s0). split; [now apply in_map|]. split; [now apply in_map|]. cbn [sliceBox bMinY bMaxY ext_ltb]. apply Rltb_spec. lra.
  - exists ix. split; [exact E|]. intros p. destruct (HQ (vx p - d) (vy p - d) (vx p + d) (vy p + d)) as (l & El & Nl & Hl).
    exists l. split; [exact El|]. split; [exact Nl|]. intros c. rewrite Hl. split.
    + intros (x0 & y0 & x1 & y1 & En & H). rewrite nth_error_map in En. destruct (nth_error slices c) as [s|] eqn:Es; [|discriminate].
      assert (Hc : (c < length slices)%nat) by (apply nth_error_Some; congruence). destruct (sliceAt_In c Hc) as [_ Es']. rewrite Es in Es'. injection Es' as ->.
      cbn [option_map sliceBox] in En. injection En as <- <- <- <-. split; [auto|]. unfold startOf. split; apply Rabs_le; lra.
    + intros (Hc & Hx & Hy). destruct (sliceAt_In c Hc) as [_ Es]. unfold startOf in *. do 4 eexists. rewrite nth_error_map, Es. cbn [option_map sliceBox]. split; [reflexivity|].
      unfold Rabs in Hx, Hy; destruct (Rcase_abs _) in Hx; destruct (Rcase_abs _) in Hy; lra.
Qed.

(** the visited flags describe the used slices *)
Definition flags (visited : list bool) (used : list nat) : Prop :=
  length visited = length slices /\ forall i, (i < length slices)%nat -> nth_error visited i = Some (if in_dec Nat.eq_dec i used then true else false).

Lemma flags_set visited used i : (i < length slices)%nat -> flags visited used -> exists v', rset visited i true = Ok v' /\ flags v' (i :: used).
Proof.
  intros Hi [L F]. exists (upd visited i true). split; [apply rset_ok; lia|]. split; [now rewrite upd_length|]. intros j Hj.
  destruct (Nat.eq_dec i j) as [<-|Hne].
  - rewrite nth_error_upd_eq by lia. destruct (in_dec Nat.eq_dec i (i :: used)) as [_|H]; [reflexivity|]. elim H. now left.
  - rewrite nth_error_upd_ne by auto. rewrite F by auto. f_equal. destruct (in_dec Nat.eq_dec j used), (in_dec Nat.eq_dec j (i :: used)) as [H|H]; try reflexivity.
    + elim H. now right.
    + destruct H; [congruence|contradiction].
Qed.

Lemma free_count used : NoDup used -> (forall i, In i used -> (i < length slices)%nat) -> (length used <= length slices)%nat.
Proof. intros N H. rewrite <- (seq_length (length slices) 0). apply NoDup_incl_length; [auto|]. intros i Hi. apply in_seq. specialize (H i Hi). lia. Qed.

Lemma removelast_len {A} (l : list A) : length (removelast l) = (length l - 1)%nat.
Proof. destruct l as [|x l]; [reflexivity|]. destruct (exists_last (l := x :: l) ltac:(discriminate)) as (l' & y & ->). rewrite removelast_app by discriminate. cbn. rewrite app_nil_r, app_length. cbn. lia. Qed.

Lemma popBack_vs b l (v : vertex) : popBack (mkPline b (l ++ [v])) = Ok (mkPline b l).
Proof. unfold popBack. cbn [vertexes]. rewrite rev_app_distr. cbn [rev app]. now rewrite rev_involutive. Qed.

(** the open polyline built so far for a chain whose last slice is cur *)
Definition partialVs (ch : list nat) (cur : nat) : list vertex := chainVertexes slices ch ++ vertexes (sliceAt slices cur).

Lemma walk_loop ix first : (forall p : vec, exists l, query defaultNodeSize ix (Fin (vx p - d)) (Fin (vy p - d)) (Fin (vx p + d)) (Fin (vy p + d)) [] = Ok l /\ NoDup l /\
    forall c, In c l <-> (c < length slices)%nat /\ Rabs (vx p - vx (startOf slices c)) <= 2 * d /\ Rabs (vy p - vy (startOf slices c)) <= 2 * d) ->
  (first < length slices)%nat ->
  forall fuel used visited result cur ch, flags visited used -> NoDup used -> (forall i, In i used -> (i < length slices)%nat) -> (cur < length slices)%nat ->
  (length slices < fuel + length used)%nat ->
  exists o used' visited', walk slices sel d first used cur (ch ++ [cur]) o used' /\ flags visited' used' /\ NoDup used' /\ (forall i, In i used' -> (i < length slices)%nat) /\
    stitchLoop fuel sel d slices ix first visited result (mkPline false (partialVs ch cur)) cur =
      Ok (visited', result ++ match o with Some c => closedChain slices c | None => [] end).
Proof.
  intros HQ Hf. induction fuel as [|fuel IH]; intros used visited result cur ch Hfl Hnd Hu Hc Hfuel.
  { pose proof (free_count used Hnd Hu). lia. }
  cbn [stitchLoop]. pose proof (sliceAt_len cur Hc) as Hlc.
  destruct (exists_last (l := vertexes (sliceAt slices cur)) ltac:(intros E; rewrite E in Hlc; cbn in Hlc; lia)) as (lc & vc & Ec).
  assert (Ep : partialVs ch cur = (chainVertexes slices ch ++ lc) ++ [vc]) by (unfold partialVs; now rewrite Ec, app_assoc). rewrite Ep.
  assert (Elv : forall b, lastVertex (mkPline b ((chainVertexes slices ch ++ lc) ++ [vc])) = Ok vc) by (intros b; unfold lastVertex; cbn [vertexes]; rewrite rev_app_distr; reflexivity).
  rewrite Elv. cbn [bind].
  assert (Eend : endOf slices cur = pos vc) by (unfold endOf; now rewrite Ec, last_last).
  destruct (HQ (pos vc)) as (q & Eq & Nq & Hq). unfold px, py.
  match goal with |- context [bind ?m _] => assert (E' : m = Ok q) by exact Eq; rewrite E'; clear E' end. cbn [bind].
  set (keep := fun i => negb (if (i =? first)%nat then false else if in_dec Nat.eq_dec i used then true else false)).
  assert (Erem : removeIf (fun i => if (i =? first)%nat then Ok false else rget visited i) q = Ok (filter keep q)).
  { apply removeIf_filter. intros i Hi. apply Hq in Hi. destruct Hi as [Hi _]. destruct (Nat.eqb_spec i first); [reflexivity|]. apply rget_inv. now apply Hfl. }
  rewrite Erem. cbn [bind].
  assert (Hav : available slices d first used cur (filter keep q)).
  { split; [now apply NoDup_filter|]. intros c. rewrite filter_In, Hq. unfold joins. rewrite Eend. unfold keep.
    destruct (Nat.eqb_spec c first) as [->|Hne]; cbn [negb]; [tauto|]. destruct (in_dec Nat.eq_dec c used); cbn [negb]; split; intros H.
    - destruct H as [_ H]. discriminate.
    - destruct H as (_ & _ & [H|H]); contradiction.
    - tauto.
    - tauto. }
  destruct (filter keep q) as [|a0 av] eqn:Ef.
  { exists None, used, visited. rewrite app_nil_r. split; [now constructor|]. auto. }
  rewrite <- Ef in *. assert (Hne : filter keep q <> []) by (rewrite Ef; discriminate). clear Ef a0 av.
  destruct (Hsel cur (filter keep q) Hne) as (o & Eo & Ho). rewrite Eo. cbn [bind]. destruct o as [c|].
  2:{ exists None, used, visited. rewrite app_nil_r. split; [eapply walk_declined; eauto|]. auto. }
  specialize (Ho c eq_refl). destruct (Nat.eqb_spec c first) as [->|Hcf].
  - exists (Some (ch ++ [cur])), used, visited. split; [eapply walk_closed; eauto|]. split; [auto|]. split; [auto|]. split; [auto|].
    unfold closePline, closedChain, size. cbn [vertexes].
    assert (Ech : chainVertexes slices (ch ++ [cur]) = chainVertexes slices ch ++ lc).
    { unfold chainVertexes. rewrite flat_map_app. cbn [flat_map]. rewrite app_nil_r, Ec. rewrite removelast_app by discriminate. cbn [removelast]. now rewrite app_nil_r. }
    rewrite Ech. rewrite (app_length _ [vc]). cbn [length]. destruct (Nat.ltb_spec (length (chainVertexes slices ch ++ lc) + 1) 3), (Nat.leb_spec 2 (length (chainVertexes slices ch ++ lc))); try lia.
    + cbn [bind]. now rewrite app_nil_r.
    + rewrite popBack_vs. cbn [bind]. reflexivity.
  - apply Hav in Ho. destruct Ho as (Hclt & Hjoin & [Ho|Ho]); [contradiction|].
    destruct (sliceAt_In c Hclt) as [_ Ecs]. assert (Er : rget slices c = Ok (sliceAt slices c)) by now apply rget_inv. rewrite Er. cbn [bind]. rewrite popBack_vs. cbn [bind].
    destruct (flags_set visited used c Hclt Hfl) as (v' & -> & Hfl'). cbn [bind isClosed vertexes].
    destruct (IH (c :: used) v' result c (ch ++ [cur]) Hfl') as (o & used' & visited' & Hw & H1 & H2 & H3 & Hs); auto.
    + now constructor.
    + intros i [<-|Hi]; auto.
    + cbn [length]. lia.
    + exists o, used', visited'. split; [eapply walk_step; eauto|]. split; [auto|]. split; [auto|]. split; [auto|].
      rewrite <- Hs. do 2 f_equal. unfold partialVs, chainVertexes. rewrite flat_map_app. cbn [flat_map]. rewrite app_nil_r, Ec. rewrite removelast_app by discriminate. cbn [removelast]. now rewrite app_nil_r.
Qed.

Theorem C34_spec : exists chains, stitched slices sel d (seq 0 (length slices)) [] chains /\
  stitchOrderedSlices slices sel d = Ok (flat_map (closedChain slices) chains).
Proof.
  unfold stitchOrderedSlices. destruct (Nat.eqb_spec (length slices) 0) as [E|E].
  { exists []. rewrite E. split; [constructor|reflexivity]. }
  destruct (index_query ltac:(intros H; rewrite H in E; cbn in E; lia)) as (ix & -> & HQ). cbn [bind].
  assert (G : forall l used visited result, (forall i, In i l -> (i < length slices)%nat) -> flags visited used -> NoDup used -> (forall i, In i used -> (i < length slices)%nat) ->
    exists chains v', stitched slices sel d l used chains /\ mfold (stitchFrom sel d slices ix) l (visited, result) = Ok (v', result ++ flat_map (closedChain slices) chains)).
  { induction l as [|i l IH]; intros used visited result Hl Hfl Hnd Hu.
    - exists [], visited. cbn [mfold flat_map]. rewrite app_nil_r. split; [constructor|reflexivity].
    - assert (Hi : (i < length slices)%nat) by (apply Hl; now left). cbn [mfold]. unfold stitchFrom at 1.
      assert (Ev : rget visited i = Ok (if in_dec Nat.eq_dec i used then true else false)) by (apply rget_inv; now apply Hfl). rewrite Ev. cbn [bind].
      destruct (in_dec Nat.eq_dec i used) as [Hin|Hin].
      + cbn [bind]. destruct (IH used visited result (fun j H => Hl j (or_intror H)) Hfl Hnd Hu) as (chains & v' & S & M). exists chains, v'. split; [now constructor|exact M].
      + destruct (flags_set visited used i Hi Hfl) as (v1 & -> & Hfl1). cbn [bind].
        destruct (sliceAt_In i Hi) as [_ Es]. assert (Er : rget slices i = Ok (sliceAt slices i)) by now apply rget_inv. rewrite Er. cbn [bind].
        destruct (walk_loop ix i HQ Hi (S (length slices)) (i :: used) v1 result i [] Hfl1) as (o & used' & v2 & Hw & F2 & N2 & U2 & El); auto.
        { now constructor. }
        { intros j [<-|Hj]; auto. }
        { cbn [length]. lia. }
        cbn [app] in Hw, El. unfold partialVs in El. cbn [chainVertexes flat_map app] in El. rewrite El. cbn [bind].
        destruct (IH used' v2 (result ++ match o with Some c => closedChain slices c | None => [] end) (fun j H => Hl j (or_intror H)) F2 N2 U2) as (chains & v' & S & M).
        destruct o as [c|].
        * exists (c :: chains), v'. split; [eapply st_closed; eauto|]. rewrite M. cbn [flat_map]. now rewrite <- app_assoc.
        * exists chains, v'. split; [eapply st_open; eauto|]. rewrite M. now rewrite app_nil_r. }
  destruct (G (seq 0 (length slices)) [] (repeat false (length slices)) []) as (chains & v' & S & M).
  - intros i Hi. apply in_seq in Hi. lia.
  - split; [apply repeat_length|]. intros i Hi. destruct (in_dec Nat.eq_dec i []) as [[]|_]. rewrite (nth_error_nth' _ false) by (now rewrite repeat_length). now rewrite nth_repeat.
  - constructor.
  - intros i [].
  - exists chains. split; [exact S|]. rewrite M. reflexivity.
Qed.

(** ** What the relation means *)

(** consecutive slices of a chain are joined, and its last slice joins its first *)
Definition ring (ch : list nat) : Prop :=
  match ch with
  | [] => False
  | i :: l => (forall l1 a b l2, ch = l1 ++ a :: b :: l2 -> joins slices d a b) /\ joins slices d (last l i) i
  end.

Lemma walk_props first used cur ch o used' : walk slices sel d first used cur (ch ++ [cur]) o used' -> 
  (forall i, In i (ch ++ [cur]) -> In i used) -> NoDup (ch ++ [cur]) -> (forall i, In i (ch ++ [cur]) -> (i < length slices)%nat) ->
  (forall l1 a b l2, ch ++ [cur] = l1 ++ a :: b :: l2 -> joins slices d a b) ->
  (forall i, In i used -> In i used') /\
  forall c, o = Some c -> (exists t, c = ch ++ [cur] ++ t) /\ NoDup c /\ (forall i, In i c -> (i < length slices)%nat) /\ (forall i, In i c -> In i used' /\ (In i used -> In i (ch ++ [cur]))) /\
    (forall l1 a b l2, c = l1 ++ a :: b :: l2 -> joins slices d a b) /\ joins slices d (last c first) first.
Proof.
  remember (ch ++ [cur]) as chc eqn:Echc. intros W. revert ch Echc.
  induction W as [used cur0 chc Hav|used cur0 chc avail Hav Hne Hs|used cur0 chc avail Hav Hne Hs|used cur0 chc avail c o used' Hav Hne Hs Hcf W IH]; intros ch Echc Hin Hnd Hlt Hj.
  - split; [auto|]. discriminate.
  - split; [auto|]. discriminate.
  - split; [auto|]. intros c E. injection E as <-. split; [exists []; now rewrite Echc, app_nil_r|]. split; [auto|]. split; [auto|]. split; [intros i Hi; split; auto|]. split; [auto|].
    rewrite Echc, last_last. destruct (Hsel cur0 avail Hne) as (o & Eo & Ho). rewrite Hs in Eo. injection Eo as <-. specialize (Ho first eq_refl). apply Hav in Ho. tauto.
  - destruct (Hsel cur0 avail Hne) as (o' & Eo & Ho). rewrite Hs in Eo. injection Eo as <-. specialize (Ho c eq_refl). apply Hav in Ho. destruct Ho as (Hclt & Hjoin & [Ho|Ho]); [contradiction|].
    assert (Hnc : ~ In c chc) by (intros H; apply Ho, Hin, H).
    destruct (IH chc eq_refl) as [IH1 IH2].
    + intros i Hi. apply in_app_or in Hi. destruct Hi as [Hi|[<-|[]]]; [right; auto|now left].
    + apply (Permutation_NoDup (Permutation_app_comm [c] chc)). cbn [app]. now constructor.
    + intros i Hi. apply in_app_or in Hi. destruct Hi as [Hi|[<-|[]]]; auto.
    + intros l1 a b l2 E. destruct l2 as [|z l2].
      * rewrite (app_assoc l1 [a] [b]) in E || (replace (l1 ++ [a; b]) with ((l1 ++ [a]) ++ [b]) in E by now rewrite <- app_assoc).
        apply app_inj_tail in E. destruct E as [E ->]. rewrite Echc in E. apply app_inj_tail in E. destruct E as [_ ->]. exact Hjoin.
      * destruct (exists_last (l := z :: l2) ltac:(discriminate)) as (l3 & y & E3). rewrite E3 in E.
        replace (l1 ++ a :: b :: l3 ++ [y]) with ((l1 ++ a :: b :: l3) ++ [y]) in E by now rewrite <- app_assoc. apply app_inj_tail in E. destruct E as [E _]. eapply Hj; eauto.
    + split; [intros i Hi; apply IH1; now right|]. intros c' Ec'. destruct (IH2 c' Ec') as ((t & Et) & N & L & U & J & K).
      split; [exists (c :: t); rewrite Et, Echc, <- !app_assoc; reflexivity|]. split; [auto|]. split; [auto|]. split; [|auto].
      intros i Hi. destruct (U i Hi) as [U1 U2]. split; [auto|]. intros Hiu. specialize (U2 (or_intror Hiu)). apply in_app_or in U2. destruct U2 as [U2|[<-|[]]]; [auto|contradiction].
Qed.

Lemma stitched_props l used chs : stitched slices sel d l used chs -> (forall i, In i l -> (i < length slices)%nat) ->
  NoDup (concat chs) /\ (forall i, In i (concat chs) -> (i < length slices)%nat /\ ~ In i used) /\ List.Forall ring chs.
Proof.
  induction 1 as [used|i l used chs Hin S IH|i l used used' chs Hin W S IH|i l used ch used' chs Hin W S IH]; intros Hl.
  - split; [constructor|]. split; [intros i []|constructor].
  - apply IH. intros; apply Hl; now right.
  - destruct (IH (fun j H => Hl j (or_intror H))) as (N & U & R). split; [auto|]. split; [|auto]. intros j Hj. destruct (U j Hj) as [U1 U2]. split; [auto|]. intros Hju. apply U2.
    apply (walk_props i (i :: used) i [] None used' W); cbn [app In].
    + intros k [<-|[]]. now left.
    + repeat constructor. intros [].
    + intros k [<-|[]]. apply Hl. now left.
    + intros l1 a b l2 E. destruct l1 as [|? [|? ?]]; discriminate.
    + now right.
  - destruct (IH (fun j H => Hl j (or_intror H))) as (N & U & R).
    assert (P1 : forall k, In k ([] ++ [i]) -> In k (i :: used)) by (intros k [<-|[]]; now left).
    assert (P2 : NoDup ([] ++ [i])) by (repeat constructor; intros []).
    assert (P3 : forall k, In k ([] ++ [i]) -> (k < length slices)%nat) by (intros k [<-|[]]; apply Hl; now left).
    assert (P4 : forall l1 a b l2, [] ++ [i] = l1 ++ a :: b :: l2 -> joins slices d a b) by (intros l1 a b l2 E; destruct l1 as [|? [|? ?]]; discriminate).
    destruct (walk_props i (i :: used) i [] (Some ch) used' W P1 P2 P3 P4) as [M X]. destruct (X ch eq_refl) as ((t & Et) & Nc & Lc & Uc & Jc & Kc).
    cbn [concat]. split; [|split].
    + assert (G : forall (a b : list nat), NoDup a -> NoDup b -> (forall x, In x a -> ~ In x b) -> NoDup (a ++ b)).
      { clear. induction a as [|x a IH]; intros b Ha Hb H; [auto|]. inversion Ha. subst. cbn [app]. constructor.
        - rewrite in_app_iff. intros [Q|Q]; [auto|]. apply (H x); auto. now left.
        - apply IH; auto. intros y Hy. apply H. now right. }
      apply G; auto. intros x Hx Hx'. apply (U x Hx'). apply Uc. exact Hx.
    + intros j Hj. apply in_app_or in Hj. destruct Hj as [Hj|Hj].
      * split; [auto|]. intros Hju. destruct (Uc j Hj) as [_ Q]. specialize (Q (or_intror Hju)). destruct Q as [<-|[]]. contradiction.
      * destruct (U j Hj) as [U1 U2]. split; [auto|]. intros Hju. apply U2, M. now right.
    + constructor; [|auto]. cbn [app] in Et. subst ch. unfold ring. split; [exact Jc|]. clear -Kc. destruct t as [|y t]; exact Kc.
Qed.

(** ** C34 *)
(** The operation succeeds (its loop guard does not fire); the result consists of closed polylines with at least two vertices, each made
    of a ring of slices joined end to start; no slice is used twice. *)
Theorem C34_stitch : exists chains, stitchOrderedSlices slices sel d = Ok (flat_map (closedChain slices) chains) /\
  NoDup (concat chains) /\ (forall i, In i (concat chains) -> (i < length slices)%nat) /\ List.Forall ring chains /\
  (forall p, In p (flat_map (closedChain slices) chains) -> isClosed p = true /\ (2 <= length (vertexes p))%nat).
Proof.
  destruct C34_spec as (chains & S & E). exists chains. split; [exact E|].
  destruct (stitched_props _ _ _ S) as (N & U & R). { intros i Hi. apply in_seq in Hi. lia. }
  split; [auto|]. split; [apply U|]. split; [auto|]. intros p Hp. apply in_flat_map in Hp. destruct Hp as (ch & _ & Hp). unfold closedChain in Hp.
  destruct (Nat.leb_spec 2 (length (chainVertexes slices ch))); [|destruct Hp]. destruct Hp as [<-|[]]. auto.
Qed.
End Proof.

(** the library's selectors pick among the offered slices *)
Theorem C34_selectors : okSelector stitchFirstAvailable /\ (forall a, okSelector (unionAndIntersectSelector a)) /\ (forall a b c, okSelector (excludeAndXORSelector a b c)).
Proof.
  assert (Hf : forall P (av : list nat) c, find P av = Some c -> In c av) by (intros P av c H; apply find_some in H; tauto).
  assert (Hg : forall av : list nat, av <> [] -> exists o, (let! a := rget av 0 in Ok (Some a)) = Ok o /\ forall c, o = Some c -> In c av).
  { intros [|a av] H; [contradiction|]. exists (Some a). split; [reflexivity|]. intros c E. injection E as ->. now left. }
  assert (Hn : forall av : list nat, exists o : option nat, Ok None = Ok o /\ forall c, o = Some c -> In c av) by (intros av; exists None; split; [reflexivity|discriminate]).
  assert (Hs : forall (av : list nat) P i, find P av = Some i -> exists o, Ok (Some i) = Ok o /\ forall c, o = Some c -> In c av).
  { intros av P i H. exists (Some i). split; [reflexivity|]. intros c E. injection E as ->. eauto. }
  split; [|split].
  - intros cur av H. apply Hg, H.
  - intros a cur av H. unfold unionAndIntersectSelector. destruct (find _ av) eqn:E; [eapply Hs; eauto|]. destruct (_ <=? _)%nat; [apply Hn|apply Hg, H].
  - intros a b c cur av H. unfold excludeAndXORSelector.
    repeat match goal with
    | |- context [match find ?P av with _ => _ end] => destruct (find P av) eqn:?; [eapply Hs; eauto|]
    | |- context [if ?x then _ else _] => destruct x
    end; first [apply Hn | apply Hg, H].
Qed.

(** the slices come in four groups: of A, of B, of A along an overlap, of B along an overlap *)
Inductive origin := OfA | OfB | OfACoincident | OfBCoincident.
Definition originOf (startB startAC startBC i : nat) : origin :=
  if (i <? startB)%nat then OfA else if (i <? startAC)%nat then OfB else if (i <? startBC)%nat then OfACoincident else OfBCoincident.
(** the first of the available slices with the property *)
Definition firstOf (P : nat -> Prop) (av : list nat) (c : nat) : Prop := exists l1 l2, av = l1 ++ c :: l2 /\ P c /\ forall i, In i l1 -> ~ P i.

Lemma find_first (f : nat -> bool) (P : nat -> Prop) av c : (forall i, f i = true <-> P i) -> find f av = Some c -> firstOf P av c.
Proof.
  intros Hf. induction av as [|a av IH]; cbn [find]; [discriminate|]. destruct (f a) eqn:E.
  - intros H. injection H as <-. exists [], av. split; [reflexivity|]. split; [now apply Hf|]. intros i [].
  - intros H. destruct (IH H) as (l1 & l2 & -> & H1 & H2). exists (a :: l1), l2. split; [reflexivity|]. split; [auto|]. intros i [<-|Hi]; [|auto]. intros HP. apply Hf in HP. congruence.
Qed.
Lemma find_absent (f : nat -> bool) (P : nat -> Prop) av : (forall i, f i = true <-> P i) -> find f av = None -> forall i, In i av -> ~ P i.
Proof. intros Hf H i Hi HP. apply Hf in HP. pose proof (find_none _ _ H i Hi). congruence. Qed.

(** union and intersection: a slice that is not along an overlap is preferred; two overlaps are never chained *)
Theorem C34_union_order (startB startAC startBC cur : nat) (av : list nat) : (startB <= startAC)%nat -> (startAC <= startBC)%nat -> av <> [] ->
  let o := originOf startB startAC startBC in
  let plain i := o i = OfA \/ o i = OfB in
  (exists c, unionAndIntersectSelector startAC cur av = Ok (Some c) /\ firstOf plain av c) \/
  ((forall i : nat, In i av -> ~ plain i) /\
   (plain cur -> unionAndIntersectSelector startAC cur av = Ok (hd_error av)) /\ (~ plain cur -> unionAndIntersectSelector startAC cur av = Ok None)).
Proof.
  intros H1 H2 Ne o plain.
  assert (Hp : forall i, (i <? startAC)%nat = true <-> plain i).
  { intros i. unfold plain, o, originOf. destruct (Nat.ltb_spec i startB), (Nat.ltb_spec i startAC), (Nat.ltb_spec i startBC); split; intros HH; try tauto; try lia; try discriminate; destruct HH; discriminate. }
  unfold unionAndIntersectSelector. destruct (find (fun i => (i <? startAC)%nat) av) eqn:E.
  - left. exists n. split; [reflexivity|]. exact (find_first _ _ _ _ Hp E).
  - right. split; [exact (find_absent _ _ _ Hp E)|]. destruct (Nat.leb_spec startAC cur) as [L|L].
    + split; [|reflexivity]. intros HP. apply Hp, Nat.ltb_lt in HP. lia.
    + split; [destruct av; [contradiction|reflexivity]|]. intros HP. destruct HP. apply Hp, Nat.ltb_lt, L.
Qed.

(** exclusion: the two inputs alternate where possible; an overlap of A is followed by a slice of B if there is one, else of A, an overlap of B by a slice
    of A if there is one, else of B; two overlaps are never chained *)
Theorem C34_exclude_order (startB startAC startBC cur : nat) (av : list nat) : (startB <= startAC)%nat -> (startAC <= startBC)%nat -> av <> [] ->
  let o := originOf startB startAC startBC in
  let other i := match o cur with OfA | OfACoincident => o i = OfB | OfB | OfBCoincident => o i = OfA end in
  let same i := match o cur with OfA | OfACoincident => o i = OfA | OfB | OfBCoincident => o i = OfB end in
  (exists c, excludeAndXORSelector startB startAC startBC cur av = Ok (Some c) /\ firstOf other av c) \/
  ((forall i : nat, In i av -> ~ other i) /\
   match o cur with
   | OfA | OfB => excludeAndXORSelector startB startAC startBC cur av = Ok (hd_error av)
   | _ => (exists c, excludeAndXORSelector startB startAC startBC cur av = Ok (Some c) /\ firstOf same av c) \/
          ((forall i : nat, In i av -> ~ same i) /\ excludeAndXORSelector startB startAC startBC cur av = Ok None)
   end).
Proof.
  intros H1 H2 Ne o other same.
  assert (HA : forall i, (i <? startB)%nat = true <-> o i = OfA).
  { intros i. unfold o, originOf. destruct (Nat.ltb_spec i startB), (Nat.ltb_spec i startAC), (Nat.ltb_spec i startBC); split; intros; try tauto; try lia; try discriminate. }
  assert (HB : forall i, ((startB <=? i) && (i <? startAC))%nat = true <-> o i = OfB).
  { intros i. unfold o, originOf. rewrite andb_true_iff, Nat.leb_le. destruct (Nat.ltb_spec i startB), (Nat.ltb_spec i startAC), (Nat.ltb_spec i startBC); split; intros; try tauto; try lia; try discriminate. }
  assert (Hd : (let! a := rget av 0 in Ok (Some a)) = Ok (hd_error av)) by (destruct av; [contradiction|reflexivity]).
  unfold excludeAndXORSelector. rewrite !Hd.
  destruct (Nat.leb_spec startAC cur) as [L|L]; [destruct (Nat.ltb_spec cur startBC) as [L'|L']|destruct (Nat.ltb_spec cur startB) as [L'|L']].
  - assert (Eo : o cur = OfACoincident) by (unfold o, originOf; destruct (Nat.ltb_spec cur startB), (Nat.ltb_spec cur startAC), (Nat.ltb_spec cur startBC); try lia; reflexivity).
    unfold other, same. rewrite Eo. destruct (find _ av) eqn:E1; [left; eexists; split; [reflexivity|]; eapply find_first; [first [exact HA|exact HB]|eassumption]|].
    right. split; [eapply find_absent; [first [exact HA|exact HB]|eassumption]|]. destruct (find (fun i => (i <? startB)%nat) av) eqn:E2; [left; eexists; split; [reflexivity|]; eapply find_first; [first [exact HA|exact HB]|eassumption]|].
    right. split; [eapply find_absent; [first [exact HA|exact HB]|eassumption]|reflexivity].
  - assert (Eo : o cur = OfBCoincident) by (unfold o, originOf; destruct (Nat.ltb_spec cur startB), (Nat.ltb_spec cur startAC), (Nat.ltb_spec cur startBC); try lia; reflexivity).
    unfold other, same. rewrite Eo. destruct (find (fun i => (i <? startB)%nat) av) eqn:E1; [left; eexists; split; [reflexivity|]; eapply find_first; [first [exact HA|exact HB]|eassumption]|].
    right. pose proof (find_absent _ _ _ HA E1) as Na. split; [auto|]. destruct (find (fun i => (i <? startAC)%nat) av) eqn:E2.
    + left. exists n. split; [reflexivity|]. destruct (find_first (fun i => (i <? startAC)%nat) (fun i => o i = OfA \/ o i = OfB) av n) as (l1 & l2 & Ea & Hn & Hl); [|auto|].
      * intros i. unfold o, originOf. destruct (Nat.ltb_spec i startB), (Nat.ltb_spec i startAC), (Nat.ltb_spec i startBC); split; intros HH; try tauto; try lia; try discriminate; destruct HH; discriminate.
      * exists l1, l2. split; [auto|]. split; [|intros i Hi Hc; apply (Hl i Hi); now right]. destruct Hn as [Hn|Hn]; [|auto]. destruct (Na n); [|auto]. rewrite Ea. apply in_app_iff. right. now left.
    + right. split; [|reflexivity]. intros i Hi Hc. apply HB, andb_prop in Hc. destruct Hc as [_ Hc]. pose proof (find_none _ _ E2 i Hi) as Hx. cbv beta in Hx. rewrite Hx in Hc. discriminate.
  - assert (Eo : o cur = OfA) by (unfold o, originOf; destruct (Nat.ltb_spec cur startB), (Nat.ltb_spec cur startAC), (Nat.ltb_spec cur startBC); try lia; reflexivity).
    unfold other, same. rewrite Eo. destruct (find _ av) eqn:E1; [left; eexists; split; [reflexivity|]; eapply find_first; [first [exact HA|exact HB]|eassumption]|]. right. split; [eapply find_absent; [first [exact HA|exact HB]|eassumption]|reflexivity].
  - assert (Eo : o cur = OfB) by (unfold o, originOf; destruct (Nat.ltb_spec cur startB), (Nat.ltb_spec cur startAC), (Nat.ltb_spec cur startBC); try lia; reflexivity).
    unfold other, same. rewrite Eo. destruct (find _ av) eqn:E1; [left; eexists; split; [reflexivity|]; eapply find_first; [first [exact HA|exact HB]|eassumption]|]. right. split; [eapply find_absent; [first [exact HA|exact HB]|eassumption]|reflexivity].
Qed.

(** non-vacuity: two half-loops *)
Example C34_example : let a := mkPline false [mkVertex 0 0 0; mkVertex 1 1 0; mkVertex 2 0 0] in let b := mkPline false [mkVertex 2 0 0; mkVertex 0 0 0] in
  (forall s, In s [a; b] -> (2 <= length (vertexes s))%nat) /\ joins [a; b] (1 / 10000) 0 1 /\ joins [a; b] (1 / 10000) 1 0.
Proof.
  intros a b. split; [intros s [<-|[<-|[]]]; cbn; lia|]. split; split; cbn; rewrite Rminus_diag_eq by reflexivity; rewrite Rabs_R0; lra.
Qed.
