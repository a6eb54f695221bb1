(** * C38: stitching the slices of an offset *)
From Coq Require Import ZArith Reals Lra Lia List Bool Arith Permutation Sorted.
From Verif Require Import Base Num MathUtils PlineSegment SpatialIndex IndexTree IndexQuery PropsIndex Polyline Intersects Combine Offset RGeom Spec PropsPlineIndex PropsFindIntr PropsCoincident StdLaws PropsStitch.
Import ListNotations.
Open Scope R_scope.

(** ** Specification *)
Section Spec.
Context (slices : list openSlice) (isClosedOrig : bool) (maxIndex : nat) (d : R).
Local Notation sls := (map slPline slices).
Local Notation n := (length slices).

(** index of the segment of the raw offset the slice starts on *)
Definition startSeg (i : nat) : nat := match nth_error slices i with Some s => match intrStartIndex s with Some k => k | None => 0%nat end | None => 0%nat end.
(** steps forward from segment a to segment b (as computed by the code: a wrapping step is not counted) *)
Definition gap (a b : nat) : nat := if (a <=? b)%nat then (b - a)%nat else (maxIndex - a + b)%nat.
(** slice c ends where the chain started *)
Definition endsAt (initial : vec) (c : nat) : bool := fuzzyEqual (endOf sls c) initial (1 / 100000).
(** slice c is preferred over c' after cur: fewer steps forward; for equally many steps one that does not close the chain *)
Definition preferred (initial : vec) (cur c c' : nat) : Prop :=
  (gap (startSeg cur) (startSeg c) < gap (startSeg cur) (startSeg c'))%nat \/
  (gap (startSeg cur) (startSeg c) = gap (startSeg cur) (startSeg c') /\ endsAt initial c = false /\ endsAt initial c' = true).

Definition mayFollow (used : list nat) (cur c : nat) : Prop := (c < n)%nat /\ joins sls d cur c /\ ~ In c used.

(** a chain is extended by an unused slice starting at its end, none being preferred over it, until there is none *)
Inductive chain (initial : vec) : list nat -> nat -> list nat -> list nat -> Prop :=
| chain_end used cur : (forall c, ~ mayFollow used cur c) -> chain initial used cur [cur] used
| chain_step used cur c ch used' : mayFollow used cur c -> (forall c', mayFollow used cur c' -> ~ preferred initial cur c' c) ->
    chain initial (c :: used) c ch used' -> chain initial used cur (cur :: ch) used'.

Inductive chained : list nat -> list nat -> list (list nat) -> Prop :=
| ch_nil used : chained [] used []
| ch_used i l used chs : In i used -> chained l used chs -> chained (i :: l) used chs
| ch_new i l used ch used' chs : ~ In i used -> chain (startOf sls i) (i :: used) i ch used' -> chained l used' chs -> chained (i :: l) used (ch :: chs).

(** the vertices along a chain: the last vertex of each slice but the last one is replaced by the first vertex of the next *)
Fixpoint chainVs (ch : list nat) : list vertex :=
  match ch with
  | [] => []
  | [i] => vertexes (sliceAt sls i)
  | i :: ch' => removelast (vertexes (sliceAt sls i)) ++ chainVs ch'
  end.

(** the polyline of a chain: closed iff the original is and the chain ends where it starts *)
Definition chainPline (ch : list nat) : list polyline :=
  let vs := chainVs ch in
  if (length vs <=? 1)%nat then []
  else if isClosedOrig && fuzzyEqual (pos (hd vdflt vs)) (pos (last vs vdflt)) (1 / 100000)
       then [mkPline true (removelast vs)] else [mkPline false vs].
End Spec.

(** ** Proof *)
Section Proof.
Context {SL : StdLib} {SLaws : StdLaws SL}.
Context (slices : list openSlice) (isClosedOrig : bool) (maxIndex : nat) (d : R).
Local Notation sls := (map slPline slices).
Local Notation n := (length slices).
Hypothesis (Hd : 0 < d) (Hlen : (Z.of_nat n <= 2 ^ 24)%Z) (Hsl : forall s, In s slices -> (1 <= length (vertexes (slPline s)))%nat).
Hypothesis (Hidx : forall s, In s slices -> intrStartIndex s <> None).

Lemma sls_len : length sls = n.
Proof. apply map_length. Qed.

Lemma sls_ne : forall s, In s sls -> (1 <= length (vertexes s))%nat.
Proof. intros s H. apply in_map_iff in H. destruct H as (x & <- & Hx). now apply Hsl. Qed.

Lemma slice_get i : (i < n)%nat -> exists s, nth_error slices i = Some s /\ In s slices /\ sliceAt sls i = slPline s /\ intrStartIndex s = Some (startSeg slices i).
Proof.
  intros H. destruct (nth_error slices i) as [s|] eqn:E; [|apply nth_error_None in E; lia]. exists s. split; [auto|]. pose proof (nth_error_In _ _ E) as Hin. split; [auto|].
  split. { unfold sliceAt. erewrite nth_error_nth; [reflexivity|]. now rewrite nth_error_map, E. }
  unfold startSeg. rewrite E. specialize (Hidx s Hin). destruct (intrStartIndex s); congruence.
Qed.

(** the comparator compares (gap, closes) *)
Definition key (initial : vec) (cur c : nat) : nat * bool := (gap maxIndex (startSeg slices cur) (startSeg slices c), endsAt slices initial c).
Definition keyLt (a b : nat * bool) : bool := if (fst a =? fst b)%nat then negb (snd a) && snd b else (fst a <? fst b)%nat.

Lemma keyLt_weak : strictWeak keyLt.
Proof.
  assert (E : forall a b, keyLt a b = (2 * fst a + Nat.b2n (snd a) <? 2 * fst b + Nat.b2n (snd b))%nat).
  { intros [a x] [b y]. unfold keyLt. cbn [fst snd]. destruct (Nat.eqb_spec a b) as [->|H].
    - destruct x, y; cbn [negb andb Nat.b2n]; symmetry; first [apply Nat.ltb_lt; lia | apply Nat.ltb_ge; lia].
    - destruct (Nat.ltb_spec a b), (Nat.ltb_spec (2 * a + Nat.b2n x) (2 * b + Nat.b2n y)); auto; destruct x, y; cbn [Nat.b2n] in *; lia. }
  split.
  - intros a. rewrite E. apply Nat.ltb_ge. lia.
  - intros a b c. rewrite !E, !Nat.ltb_lt. lia.
  - intros a b c. rewrite !E, !Nat.ltb_ge. lia.
Qed.

Lemma stitchCmp_key initial cur i j : (cur < n)%nat -> (i < n)%nat -> (j < n)%nat ->
  stitchCmp slices maxIndex (Some (startSeg slices cur)) initial i j = keyLt (key initial cur i) (key initial cur j).
Proof.
  intros Hc Hi Hj. destruct (slice_get i Hi) as (si & Ei & _ & Si & Ki). destruct (slice_get j Hj) as (sj & Ej & _ & Sj & Kj).
  unfold stitchCmp. rewrite Ei, Ej, Ki, Kj. unfold key, keyLt, endsAt, endOf. rewrite Si, Sj. cbn [fst snd]. unfold indexDist, gap. reflexivity.
Qed.

Lemma keyLt_preferred initial cur c c' : keyLt (key initial cur c) (key initial cur c') = true <-> preferred slices maxIndex initial cur c c'.
Proof.
  unfold keyLt, key, preferred. cbn [fst snd]. destruct (Nat.eqb_spec (gap maxIndex (startSeg slices cur) (startSeg slices c)) (gap maxIndex (startSeg slices cur) (startSeg slices c'))) as [E|E].
  - rewrite E. split.
    + intros H. apply andb_true_iff in H. destruct H as [H1 H2]. apply negb_true_iff in H1. right. auto.
    + intros [H|(_ & -> & ->)]; [lia|reflexivity].
  - rewrite Nat.ltb_lt. split; [auto|]. intros [H|[H _]]; [auto|contradiction].
Qed.

(** a sorting function may be fed a comparator that is only a strict weak order on the elements of the list *)
Lemma sort_min initial cur q : (cur < n)%nat -> (forall i, In i q -> (i < n)%nat) ->
  match std_sort (stitchCmp slices maxIndex (Some (startSeg slices cur)) initial) q with
  | [] => q = []
  | c :: _ => In c q /\ forall c', In c' q -> ~ preferred slices maxIndex initial cur c' c
  end.
Proof.
  intros Hc Hq. set (cmp := stitchCmp slices maxIndex (Some (startSeg slices cur)) initial).
  assert (W : strictWeak cmp).
  { set (k := fun i => match nth_error slices i with
      | Some s => (indexDist maxIndex (Some (startSeg slices cur)) (intrStartIndex s), fuzzyEqual (pos (last (vertexes (slPline s)) vdflt)) initial realPrecision)
      | None => (0%nat, false) end).
    assert (E : forall a b, cmp a b = keyLt (k a) (k b)).
    { intros a b. unfold cmp, stitchCmp, k, keyLt. destruct (nth_error slices a), (nth_error slices b); reflexivity. }
    pose proof (strictWeak_key keyLt k keyLt_weak) as [I T N]. split.
    - intros a. rewrite E. apply I.
    - intros a b c. rewrite !E. apply T.
    - intros a b c. rewrite !E. apply N. }
  pose proof (sort_perm _ cmp q) as P. pose proof (sort_sorted _ cmp q W) as S.
  destruct (std_sort cmp q) as [|c l] eqn:E; [now apply Permutation_nil|].
  assert (Hcq : In c q) by (eapply Permutation_in; [exact P|now left]). split; [auto|].
  intros c' Hc' Hp. apply keyLt_preferred in Hp. rewrite <- stitchCmp_key in Hp by auto. fold cmp in Hp.
  assert (In c' (c :: l)) as [->|Hin] by (eapply Permutation_in; [apply Permutation_sym, P|auto]).
  - rewrite (sw_irrefl cmp W) in Hp. discriminate.
  - pose proof (sorted_head cmp c l S c' Hin). congruence.
Qed.

Lemma hd_app {A} (l l' : list A) x : l <> [] -> hd x (l ++ l') = hd x l.
Proof. destruct l; [congruence|reflexivity]. Qed.

Lemma chain_loop ix initial : (forall p : vec, exists l, query defaultNodeSize ix (Fin (vx p - d)) (Fin (vy p - d)) (Fin (vx p + d)) (Fin (vy p + d)) [] = Ok l /\ NoDup l /\
    forall c, In c l <-> (c < length sls)%nat /\ Rabs (vx p - vx (startOf sls c)) <= 2 * d /\ Rabs (vy p - vy (startOf sls c)) <= 2 * d) ->
  forall fuel used visited result pre cur, flags sls visited used -> NoDup used -> (forall i, In i used -> (i < n)%nat) -> In cur used ->
  (n < fuel + length used)%nat ->
  exists ch used' visited', chain slices maxIndex d initial used cur ch used' /\ flags sls visited' used' /\ NoDup used' /\ (forall i, In i used' -> (i < n)%nat) /\
    stitchOffsetLoop fuel slices isClosedOrig maxIndex d ix initial visited result pre cur =
      let vs := pre ++ chainVs slices ch in
      Ok (visited', result ++ if (length vs <=? 1)%nat then [] else
        if isClosedOrig && fuzzyEqual (pos (hd vdflt vs)) (pos (last vs vdflt)) (1 / 100000) then [mkPline true (removelast vs)] else [mkPline false vs]).
Proof.
  intros HQ. induction fuel as [|fuel IH]; intros used visited result pre cur Hfl Hnd Hu Hcu Hfuel.
  { pose proof (free_count sls used Hnd) as F. rewrite sls_len in F. specialize (F Hu). lia. }
  assert (Hc : (cur < n)%nat) by auto. destruct (slice_get cur Hc) as (s & Es & Hins & Esl & Eidx).
  cbn [stitchOffsetLoop]. assert (Er : rget slices cur = Ok s) by now apply rget_inv. rewrite Er. cbn [bind].
  pose proof (Hsl s Hins) as Hls.
  destruct (exists_last (l := vertexes (slPline s)) ltac:(intros E; rewrite E in Hls; cbn in Hls; lia)) as (ls & ve & Els).
  assert (Elv : lastVertex (slPline s) = Ok ve) by (unfold lastVertex; rewrite Els, rev_app_distr; reflexivity).
  rewrite Elv. cbn [bind].
  assert (Eend : endOf sls cur = pos ve) by (unfold endOf; now rewrite Esl, Els, last_last).
  destruct (HQ (pos ve)) as (q & Eq & Nq & Hq). unfold px, py.
  match goal with |- context [bind ?m _] => assert (E' : m = Ok q) by exact Eq; rewrite E'; clear E' end. cbn [bind].
  set (keep := fun i => negb (if in_dec Nat.eq_dec i used then true else false)).
  assert (Erem : removeIf (rget visited) q = Ok (filter keep q)).
  { apply removeIf_filter. intros i Hi. apply Hq in Hi. destruct Hi as [Hi _]. apply rget_inv. now apply Hfl. }
  rewrite Erem. cbn [bind]. rewrite Eidx.
  assert (Hmf : forall c, In c (filter keep q) <-> mayFollow slices d used cur c).
  { intros c. rewrite filter_In, Hq. unfold mayFollow, joins, keep. rewrite Eend, sls_len. destruct (in_dec Nat.eq_dec c used); cbn [negb]; split; intros H; try tauto.
    destruct H as [_ H]. discriminate. }
  assert (Hkq : forall i, In i (filter keep q) -> (i < n)%nat) by (intros i Hi; apply Hmf in Hi; apply Hi).
  pose proof (sort_min initial cur (filter keep q) Hc Hkq) as Hmin.
  destruct (std_sort _ (filter keep q)) as [|nxt rest].
  - exists [cur], used, visited. split. { constructor. intros c H. apply Hmf in H. rewrite Hmin in H. destruct H. }
    split; [auto|]. split; [auto|]. split; [auto|]. cbn [chainVs]. rewrite Esl. cbv zeta. set (vs := pre ++ vertexes (slPline s)).
    destruct (Nat.ltb_spec 1 (length vs)) as [Hvs|Hvs], (Nat.leb_spec (length vs) 1); try lia; [|now rewrite app_nil_r].
    assert (exists v0 vt, vs = v0 :: vt) as (v0 & vt & Evs) by (clear -Hvs; destruct vs as [|v0 vt]; [cbn [length] in Hvs; lia|eauto]).
    assert (Ea : rget vs 0 = Ok v0) by (rewrite Evs; reflexivity). rewrite Ea. cbn [bind].
    assert (Eb : lastVertex (mkPline false vs) = Ok (last vs vdflt)).
    { destruct (exists_last (l := vs) ltac:(rewrite Evs; discriminate)) as (l' & y & E). rewrite E, last_last. unfold lastVertex. cbn [vertexes]. rewrite rev_app_distr. reflexivity. }
    rewrite Eb. cbn [bind]. replace (hd vdflt vs) with v0 by now rewrite Evs. rcbn.
    destruct (isClosedOrig && fuzzyEqual (pos v0) (pos (last vs vdflt)) (1 / 100000)); reflexivity.
  - destruct Hmin as [Hn Hmin]. apply Hmf in Hn. pose proof Hn as (Hnlt & Hnj & Hnu).
    destruct (flags_set sls visited used nxt ltac:(rewrite sls_len; auto) Hfl) as (v' & -> & Hfl'). cbn [bind].
    destruct (IH (nxt :: used) v' result (removelast (pre ++ vertexes (slPline s))) nxt Hfl') as (ch & used' & visited' & Hch & H1 & H2 & H3 & Hs); auto.
    + now constructor.
    + intros i [<-|Hi]; auto.
    + now left.
    + cbn [length]. lia.
    + exists (cur :: ch), used', visited'. split. { econstructor; eauto. intros c' Hc'. apply Hmin. now apply Hmf. }
      split; [auto|]. split; [auto|]. split; [auto|]. rewrite Hs. cbv zeta.
      assert (Ech : chainVs slices (cur :: ch) = ls ++ chainVs slices ch).
      { destruct ch as [|c0 ch0]; [inversion Hch|]. cbn [chainVs]. rewrite Esl, Els, removelast_app by discriminate. cbn [removelast]. now rewrite app_nil_r. }
      rewrite Ech. rewrite Els, removelast_app by (destruct ls; discriminate). rewrite removelast_app by discriminate. cbn [removelast]. rewrite app_nil_r, <- app_assoc. reflexivity.
Qed.

Theorem C38_spec : (2 <= n)%nat -> exists chains, chained slices maxIndex d (seq 0 n) [] chains /\
  stitchOffsetSlicesTogether slices isClosedOrig maxIndex d = Ok (flat_map (chainPline slices isClosedOrig) chains).
Proof.
  intros H2.
  destruct (index_query sls d Hd ltac:(now rewrite sls_len) sls_ne ltac:(intros E; apply (f_equal (@length _)) in E; rewrite sls_len in E; cbn in E; lia)) as (ix & Eix & HQ).
  assert (G : forall l used visited result, (forall i, In i l -> (i < n)%nat) -> flags sls visited used -> NoDup used -> (forall i, In i used -> (i < n)%nat) ->
    exists chains v', chained slices maxIndex d l used chains /\ mfold (stitchOffsetFrom slices isClosedOrig maxIndex d ix) l (visited, result) = Ok (v', result ++ flat_map (chainPline slices isClosedOrig) chains)).
  { induction l as [|i l IH]; intros used visited result Hl Hfl Hnd Hu.
    - exists [], visited. cbn [mfold flat_map]. rewrite app_nil_r. split; [constructor|reflexivity].
    - assert (Hi : (i < n)%nat) by (apply Hl; now left). cbn [mfold]. unfold stitchOffsetFrom at 1.
      assert (Ev : rget visited i = Ok (if in_dec Nat.eq_dec i used then true else false)) by (apply rget_inv; apply Hfl; now rewrite sls_len). rewrite Ev. cbn [bind].
      destruct (in_dec Nat.eq_dec i used) as [Hin|Hin].
      + cbn [bind]. destruct (IH used visited result (fun j H => Hl j (or_intror H)) Hfl Hnd Hu) as (chains & v' & S & M). exists chains, v'. split; [now constructor|exact M].
      + destruct (flags_set sls visited used i ltac:(now rewrite sls_len) Hfl) as (v1 & -> & Hfl1). cbn [bind].
        destruct (slice_get i Hi) as (s & Es & Hins & Esl & _). assert (Er : rget slices i = Ok s) by now apply rget_inv. rewrite Er. cbn [bind].
        pose proof (Hsl s Hins) as Hls. rewrite at_get by lia. cbn [bind].
        assert (Est : pos (at_ (slPline s) 0) = startOf sls i). { unfold startOf, at_. rewrite Esl. destruct (vertexes (slPline s)); reflexivity. }
        rewrite Est.
        destruct (chain_loop ix (startOf sls i) HQ (S n) (i :: used) v1 result [] i Hfl1) as (ch & used' & v2 & Hch & F2 & N2 & U2 & El); auto.
        { now constructor. }
        { intros j [<-|Hj]; auto. }
        { now left. }
        { cbn [length]. lia. }
        assert (El' : stitchOffsetLoop (S n) slices isClosedOrig maxIndex d ix (startOf sls i) v1 result [] i = Ok (v2, result ++ chainPline slices isClosedOrig ch)) by exact El.
        rewrite El'. cbn [bind].
        destruct (IH used' v2 (result ++ chainPline slices isClosedOrig ch) (fun j H => Hl j (or_intror H)) F2 N2 U2) as (chains & v' & S & M).
        exists (ch :: chains), v'. split; [eapply ch_new; eauto|]. rewrite M. cbn [flat_map]. now rewrite <- app_assoc. }
  destruct (G (seq 0 n) [] (repeat false n) []) as (chains & v' & S & M).
  - intros i Hi. apply in_seq in Hi. lia.
  - split; [rewrite sls_len; apply repeat_length|]. intros i Hi. rewrite sls_len in Hi. destruct (in_dec Nat.eq_dec i []) as [[]|_]. rewrite (nth_error_nth' _ false) by (now rewrite repeat_length). now rewrite nth_repeat.
  - constructor.
  - intros i [].
  - exists chains. split; [exact S|]. unfold stitchOffsetSlicesTogether. destruct slices as [|s0 [|s1 sl]]; [cbn in H2; lia|cbn in H2; lia|].
    rewrite Eix. cbn [bind]. rewrite M. reflexivity.
Qed.

(** ** What the relation means *)
Lemma chain_props initial used cur ch used' : chain slices maxIndex d initial used cur ch used' -> NoDup used -> In cur used ->
  hd_error ch = Some cur /\ Permutation used' (tl ch ++ used) /\ NoDup used' /\ (forall i, In i (tl ch) -> (i < n)%nat) /\
  (forall l1 a b l2, ch = l1 ++ a :: b :: l2 -> joins sls d a b).
Proof.
  induction 1 as [used cur Hno|used cur c ch used' Hm Hp W IH]; intros Hnd Hin.
  - cbn [hd_error tl app]. split; [reflexivity|]. split; [reflexivity|]. split; [auto|]. split; [intros i []|]. intros. destruct l1 as [|? [|? ?]]; discriminate.
  - destruct Hm as (Hlt & Hj & Hnu). destruct IH as (H1 & H2 & H3 & H4 & H5); [now constructor|now left|].
    destruct ch as [|x ch]; [discriminate|]. cbn [hd_error] in H1. injection H1 as ->. cbn [hd_error tl] in *.
    split; [reflexivity|]. split. { rewrite H2. cbn [app]. symmetry. apply Permutation_middle. }
    split; [auto|]. split. { intros i [<-|Hi]; auto. }
    intros l1 a b l2 E. destruct l1 as [|z l1].
    + cbn [app] in E. injection E as -> -> _. exact Hj.
    + cbn [app] in E. injection E as _ E. eapply H5; eauto.
Qed.

Lemma chained_props l used chs : chained slices maxIndex d l used chs -> NoDup used -> NoDup l -> (forall i, In i l -> (i < n)%nat) -> (forall i, In i used -> (i < n)%nat) ->
  exists used', Permutation used' (concat chs ++ used) /\ NoDup used' /\ (forall i, In i used' -> (i < n)%nat) /\ (forall i, In i l -> In i used') /\
  List.Forall (fun ch => ch <> [] /\ forall l1 a b l2, ch = l1 ++ a :: b :: l2 -> joins sls d a b) chs.
Proof.
  induction 1 as [used|i l used chs Hin S IH|i l used ch used' chs Hin W S IH]; intros Hnd Hnl Hl Hu.
  - exists used. repeat split; auto. intros i [].
  - inversion Hnl; subst. destruct (IH Hnd) as (u & P & N & L & A & F); auto. { intros; apply Hl; now right. }
    exists u. split; [auto|]. split; [auto|]. split; [auto|]. split; [|auto]. intros j [<-|Hj]; auto. eapply Permutation_in; [apply Permutation_sym, P|]. apply in_or_app. now right.
  - inversion Hnl; subst. destruct (chain_props _ _ _ _ _ W) as (H1' & H2' & H3' & H4' & H5'); [now constructor|now left|].
    destruct ch as [|x ch]; [discriminate|]. cbn [hd_error tl] in *. injection H1' as ->.
    destruct (IH H3') as (u & P & N & L & A & F); auto.
    { intros; apply Hl; now right. }
    { intros j Hj. eapply Permutation_in in Hj; [|exact H2']. apply in_app_or in Hj. destruct Hj as [Hj|[<-|Hj]]; auto. apply Hl. now left. }
    exists u. split. { rewrite P, H2'. cbn [concat app]. rewrite <- !app_assoc. rewrite (app_assoc (concat chs)), (Permutation_app_comm (concat chs) ch), <- app_assoc.
      rewrite <- (Permutation_middle (concat chs)), <- (Permutation_middle ch). reflexivity. }
    split; [auto|]. split; [auto|]. split.
    { intros j [<-|Hj]; auto. eapply Permutation_in; [apply Permutation_sym, P|]. apply in_or_app. right. eapply Permutation_in; [apply Permutation_sym, H2'|]. apply in_or_app. right. now left. }
    constructor; [|auto]. split; [discriminate|auto].
Qed.

(** ** C38 *)
(** The operation succeeds (its loop guard does not fire); every slice belongs to exactly one chain; consecutive slices of a chain are joined
    end to start; each chain gives one polyline (none if it is a single one-vertex slice), closed only if the original is closed. *)
Lemma C38_chains : (2 <= n)%nat -> exists chains, chained slices maxIndex d (seq 0 n) [] chains /\
  stitchOffsetSlicesTogether slices isClosedOrig maxIndex d = Ok (flat_map (chainPline slices isClosedOrig) chains) /\
  Permutation (concat chains) (seq 0 n) /\
  List.Forall (fun ch => ch <> [] /\ forall l1 a b l2, ch = l1 ++ a :: b :: l2 -> joins sls d a b) chains /\
  (forall p, In p (flat_map (chainPline slices isClosedOrig) chains) -> vertexes p <> [] /\ (isClosed p = true -> isClosedOrig = true) /\ (isClosed p = false -> (2 <= length (vertexes p))%nat)).
Proof.
  intros H2. destruct (C38_spec H2) as (chains & S & E). exists chains. split; [exact S|]. split; [exact E|].
  destruct (chained_props _ _ _ S) as (u & P & N & L & A & F).
  - constructor.
  - apply seq_NoDup.
  - intros i Hi. apply in_seq in Hi. lia.
  - intros i [].
  - rewrite app_nil_r in P. split.
    { rewrite <- P. apply NoDup_Permutation; [auto|apply seq_NoDup|]. intros i. split; [intros Hi; apply in_seq; specialize (L i Hi); lia|auto]. }
    split; [auto|]. intros p Hp. apply in_flat_map in Hp. destruct Hp as (ch & _ & Hp). unfold chainPline in Hp. cbv zeta in Hp.
    destruct (Nat.leb_spec (length (chainVs slices ch)) 1); [destruct Hp|].
    destruct (isClosedOrig && fuzzyEqual _ _ _) eqn:Ec; destruct Hp as [<-|[]]; cbn [vertexes isClosed].
    + apply andb_true_iff in Ec. destruct Ec as [Ec _]. split; [|split; [auto|discriminate]]. intros Ev. pose proof (removelast_len [] (chainVs slices ch)) as R. rewrite Ev in R. cbn in R. lia.
    + split; [|split; [discriminate|lia]]. intros Ev. rewrite Ev in *. cbn in *. lia.
Qed.

Theorem C38_stitch : (2 <= n)%nat -> exists chains,
  stitchOffsetSlicesTogether slices isClosedOrig maxIndex d = Ok (flat_map (chainPline slices isClosedOrig) chains) /\
  Permutation (concat chains) (seq 0 n) /\
  List.Forall (fun ch => ch <> [] /\ forall l1 a b l2, ch = l1 ++ a :: b :: l2 -> joins sls d a b) chains /\
  (forall p, In p (flat_map (chainPline slices isClosedOrig) chains) -> vertexes p <> [] /\ (isClosed p = true -> isClosedOrig = true) /\ (isClosed p = false -> (2 <= length (vertexes p))%nat)).
Proof. intros H2. destruct (C38_chains H2) as (chains & _ & H). exists chains. exact H. Qed.
End Proof.

(** no slices, or a single one *)
Theorem C38_none {SL : StdLib} isClosedOrig maxIndex d : stitchOffsetSlicesTogether [] isClosedOrig maxIndex d = Ok [].
Proof. reflexivity. Qed.

Theorem C38_single {SL : StdLib} s v vs isClosedOrig maxIndex d : vertexes (slPline s) = v :: vs -> isClosed (slPline s) = false ->
  stitchOffsetSlicesTogether [s] isClosedOrig maxIndex d =
  Ok [if isClosedOrig && fuzzyEqual (pos v) (pos (last (v :: vs) v)) d then mkPline true (removelast (v :: vs)) else slPline s].
Proof.
  intros Ev Ho. unfold stitchOffsetSlicesTogether. destruct isClosedOrig; [|reflexivity]. cbn [andb].
  assert (E0 : vget (slPline s) 0 = Ok v) by (unfold vget; rewrite Ev; reflexivity). rewrite E0. cbn [bind].
  destruct (exists_last (l := v :: vs) ltac:(discriminate)) as (l & x & El).
  assert (E1 : lastVertex (slPline s) = Ok x) by (unfold lastVertex; rewrite Ev, El, rev_app_distr; reflexivity). rewrite E1. cbn [bind].
  rewrite El, last_last, removelast_app by discriminate. cbn [removelast]. rewrite app_nil_r.
  destruct (fuzzyEqual (pos v) (pos x) d); [|reflexivity].
  assert (E2 : popBack (slPline s) = Ok (mkPline (isClosed (slPline s)) l)) by (unfold popBack; rewrite Ev, El, rev_app_distr; cbn [rev app]; now rewrite rev_involutive).
  rewrite E2. reflexivity.
Qed.

(** a slice of two vertices less than the join threshold apart is turned into a closed polyline with one vertex *)
Theorem C38_one_vertex_result {SL : StdLib} : let a := mkVertex 0 0 0 in let b := mkVertex (5 / 100000) 0 0 in
  fuzzyEqual (pos a) (pos b) realPrecision = false /\
  stitchOffsetSlicesTogether [mkOSl (Some 0%nat) (mkPline false [a; b])] true 3 sliceJoinThreshold = Ok [mkPline true [a]].
Proof.
  intros a b. split.
  - apply not_true_iff_false. intros H. rewrite prec_R in H. apply fuzzyEqual_R in H. unfold a, b, mkVertex in H. cbn [pos vx vy] in H. unfold Rabs in H. destruct (Rcase_abs _) in H; lra.
  - rewrite (C38_single _ a [b]) by reflexivity. cbn [last removelast andb].
    assert (F : fuzzyEqual (pos a) (pos b) sliceJoinThreshold = true).
    { rewrite sjt_R. apply fuzzyEqual_R. unfold a, b, mkVertex. cbn [pos vx vy]. split; unfold Rabs; destruct (Rcase_abs _); lra. }
    rewrite F. reflexivity.
Qed.

(** non-vacuity: two slices forming a loop *)
Example C38_example : let a := mkOSl (Some 0%nat) (mkPline false [mkVertex 0 0 0; mkVertex 1 1 0; mkVertex 2 0 0]) in let b := mkOSl (Some 2%nat) (mkPline false [mkVertex 2 0 0; mkVertex 0 0 0]) in
  (forall s, In s [a; b] -> (1 <= length (vertexes (slPline s)))%nat /\ intrStartIndex s <> None) /\ mayFollow [a; b] (1 / 10000) [0%nat] 0 1.
Proof.
  intros a b. split; [intros s [<-|[<-|[]]]; cbn; split; (lia || discriminate)|]. split; [cbn; lia|]. split; [|intros [H|[]]; discriminate].
  split; cbn; rewrite Rminus_diag_eq by reflexivity; rewrite Rabs_R0; lra.
Qed.
