(** * C32: joined coincident slices (any scalar implementation, any std::sort) *)
From Coq Require Import ZArith Lia List Bool Arith Permutation.
From Verif Require Import Base Num MathUtils PlineSegment SpatialIndex Polyline Intersects StdLaws.
Import ListNotations.

Section C32.
Context {RO : RealOps} {SL : StdLib} {SLaws : StdLaws SL}.

(** ** Specification *)
Definition nextV (pl : polyline) (i : nat) : vertex := at_ pl (nextWrappingIndex i (length (vertexes pl))).

(** the stretch with its end points in the direction of the first polyline: the one nearer to the segment's start first *)
Definition inOrder (pl : polyline) (c : cIntr) : cIntr :=
  let s := pos (at_ pl (cIndex1 c)) in
  if tltb (distSquared s (cpoint2 c)) (distSquared s (cpoint1 c)) then mkCIntr (cIndex1 c) (cIndex2 c) (cpoint2 c) (cpoint1 c) else c.
(** the vertex of the first polyline's segment that starts the stretch *)
Definition stretchStart (pl : polyline) (c : cIntr) : vertex :=
  splitVertex (splitAtPoint (at_ pl (cIndex1 c)) (nextV pl (cIndex1 c)) (cpoint1 c)).

(** the same point up to 1e-5 per coordinate *)
Definition near (p q : vec) : Prop := p = q \/ fuzzyEqual p q realPrecision = true.

(** slice i with its start point, end point: the slice is open, has at least two vertices, starts exactly at the start point and ends
    at the end point *)
Definition okSlice (n1 n2 : nat) (s : polyline) (b e : pIntr) : Prop :=
  isClosed s = false /\ (2 <= length (vertexes s))%nat /\
  ipos b = pos (hd vdflt (vertexes s)) /\ near (pos (last (vertexes s) vdflt)) (ipos e) /\
  (sIndex1 b < n1)%nat /\ (sIndex1 e < n1)%nat /\ (sIndex2 b < n2)%nat /\ (sIndex2 e < n2)%nat.
(** [Q s o]: the flag [o] fits the slice [s] *)
Inductive okSlices (Q : vertex -> bool -> Prop) (n1 n2 : nat) : list polyline -> list pIntr -> list pIntr -> list bool -> Prop :=
| ok_nil : okSlices Q n1 n2 [] [] [] []
| ok_cons s b e o ss bs es os : okSlice n1 n2 s b e -> Q (hd vdflt (vertexes s)) o -> okSlices Q n1 n2 ss bs es os ->
    okSlices Q n1 n2 (s :: ss) (b :: bs) (e :: es) (o :: os).

(** the overlapping segments run the same way: their direction vectors at their starts point to the same half plane *)
Definition sameWay (pl1 pl2 : polyline) (c : cIntr) : bool :=
  tltb t0 (dot (segTangentVector (at_ pl1 (cIndex1 c)) (nextV pl1 (cIndex1 c)) (pos (at_ pl1 (cIndex1 c))))
               (segTangentVector (at_ pl2 (cIndex2 c)) (nextV pl2 (cIndex2 c)) (pos (at_ pl2 (cIndex2 c))))).
(** a slice starting with vertex [v] has the flag of the stretch it starts with: set iff the segments do not run the same way *)
Definition flagged (pl1 pl2 : polyline) (cs : list cIntr) (v : vertex) (o : bool) : Prop :=
  exists c, In c cs /\ v = stretchStart pl1 c /\ o = negb (sameWay pl1 pl2 c).

(** ** Proof *)
Lemma ok_snoc (Q : vertex -> bool -> Prop) n1 n2 ss bs es os s b e o : okSlices Q n1 n2 ss bs es os -> okSlice n1 n2 s b e -> Q (hd vdflt (vertexes s)) o ->
  okSlices Q n1 n2 (ss ++ [s]) (bs ++ [b]) (es ++ [e]) (os ++ [o]).
Proof. intros H Hs Hq. induction H; cbn [app]; (constructor; [auto|auto|]); [constructor|auto]. Qed.

Lemma ok_weaken (Q Q' : vertex -> bool -> Prop) n1 n2 ss bs es os : (forall v o, Q v o -> Q' v o) -> okSlices Q n1 n2 ss bs es os -> okSlices Q' n1 n2 ss bs es os.
Proof. intros HQ H. induction H; constructor; auto. Qed.

Lemma vget_at pl i : (i < length (vertexes pl))%nat -> vget pl i = Ok (at_ pl i).
Proof.
  intros H. unfold vget, rget, at_. destruct (nth_error (vertexes pl) i) eqn:E.
  - apply (nth_error_nth _ _ vdflt) in E. now rewrite E.
  - apply nth_error_None in E. lia.
Qed.
Lemma next_lt i n : (i < n)%nat -> (nextWrappingIndex i n < n)%nat.
Proof. intros H. unfold nextWrappingIndex. destruct (Nat.eqb_spec (S i) n); lia. Qed.
Lemma prev_lt i n : (i < n)%nat -> (prevWrappingIndex i n < n)%nat.
Proof. intros H. unfold prevWrappingIndex. destruct (Nat.eqb_spec i 0); lia. Qed.

Lemma split_pos v1 v2 p : near (pos (splitVertex (splitAtPoint v1 v2 p))) p.
Proof.
  unfold splitAtPoint, near. destruct (bulgeIsZero v1); [now left|]. destruct (_ || _); [now left|].
  destruct (fuzzyEqual (pos v2) p realPrecision) eqn:E; [right; exact E|now left].
Qed.

Definition okIdx (pl1 pl2 : polyline) (c : cIntr) : Prop := (cIndex1 c < length (vertexes pl1))%nat /\ (cIndex2 c < length (vertexes pl2))%nat.

(** state after starting or continuing a slice whose last stretch is [prev] *)
Definition openState (Q : vertex -> bool -> Prop) (pl1 pl2 : polyline) (prev : cIntr) (done : list cIntr) (st : coincSlices * list vertex) : Prop :=
  let '(r, curr) := st in
  exists bs b os o, csStarts r = bs ++ [b] /\ csOpposing r = os ++ [o] /\
    okSlices Q (length (vertexes pl1)) (length (vertexes pl2)) (csSlices r) bs (csEnds r) os /\
    (2 <= length curr)%nat /\ ipos b = pos (hd vdflt curr) /\ near (pos (last curr vdflt)) (cpoint2 prev) /\ Q (hd vdflt curr) o /\
    (sIndex1 b < length (vertexes pl1))%nat /\ (sIndex2 b < length (vertexes pl2))%nat /\
    concat (map (fun s => removelast (vertexes s)) (csSlices r)) ++ removelast curr = map (stretchStart pl1) done.

Lemma start_R (Q : vertex -> bool -> Prop) pl1 pl2 c r done : okIdx pl1 pl2 c -> Q (stretchStart pl1 c) (negb (sameWay pl1 pl2 c)) ->
  okSlices Q (length (vertexes pl1)) (length (vertexes pl2)) (csSlices r) (csStarts r) (csEnds r) (csOpposing r) ->
  concat (map (fun s => removelast (vertexes s)) (csSlices r)) = map (stretchStart pl1) done ->
  exists st, startSlice pl1 pl2 c (r, []) = Ok st /\ openState Q pl1 pl2 c (done ++ [c]) st.
Proof.
  intros [H1 H2] HQ Hr Hc. unfold startSlice, size. pose proof (next_lt _ _ H1). pose proof (next_lt _ _ H2).
  rewrite !vget_at by auto. cbn [bind]. eexists. split; [reflexivity|]. unfold openState. cbn [csStarts csOpposing csSlices csEnds app].
  do 4 eexists. split; [reflexivity|]. split; [reflexivity|]. split; [exact Hr|]. split; [cbn; lia|]. split; [reflexivity|].
  split; [apply split_pos|]. split; [exact HQ|]. cbn [sIndex1 sIndex2].
  split; [destruct (fuzzyEqual _ _ _); auto using prev_lt|]. split; [destruct (fuzzyEqual _ _ _); auto using prev_lt|].
  rewrite map_app, <- Hc. cbn [removelast map]. reflexivity.
Qed.

Lemma end_R (Q : vertex -> bool -> Prop) pl1 pl2 c done st : okIdx pl1 pl2 c -> openState Q pl1 pl2 c done st ->
  exists r, endSlice pl2 c st = Ok (r, []) /\
    okSlices Q (length (vertexes pl1)) (length (vertexes pl2)) (csSlices r) (csStarts r) (csEnds r) (csOpposing r) /\
    concat (map (fun s => removelast (vertexes s)) (csSlices r)) = map (stretchStart pl1) done /\ csSlices r <> [].
Proof.
  intros [H1 H2] Hst. destruct st as [r curr]. destruct Hst as (bs & b & os & o & Eb & Eo & Hok & Hl & Hb & He & Hq & I1 & I2 & Hc).
  unfold endSlice, size. rewrite vget_at by auto. cbn [bind]. eexists. split; [reflexivity|]. cbn [csStarts csOpposing csSlices csEnds].
  rewrite Eb, Eo. split; [|split].
  - apply ok_snoc; [auto| |exact Hq]. unfold okSlice. cbn [isClosed vertexes ipos sIndex1 sIndex2]. repeat split; auto.
    destruct (fuzzyEqual _ _ _); auto using prev_lt.
  - rewrite map_app, concat_app. cbn [map concat vertexes]. now rewrite app_nil_r.
  - intros E. apply app_eq_nil in E. destruct E as [_ E]. discriminate.
Qed.

Lemma removelast_app1 {A} (l : list A) x : removelast (l ++ [x]) = l.
Proof. rewrite removelast_app by discriminate. cbn. apply app_nil_r. Qed.

Lemma lastVertex_snoc l (v : vertex) b : lastVertex (mkPline b (l ++ [v])) = Ok v.
Proof. unfold lastVertex. cbn [vertexes]. rewrite rev_app_distr. reflexivity. Qed.

Lemma join_R (Q : vertex -> bool -> Prop) pl1 pl2 rest : forall prev done st, okIdx pl1 pl2 prev -> (forall c, In c rest -> okIdx pl1 pl2 c) -> (forall c, In c rest -> Q (stretchStart pl1 c) (negb (sameWay pl1 pl2 c))) -> openState Q pl1 pl2 prev done st ->
  exists r, joinLoop pl1 pl2 prev rest st = Ok (r, []) /\
    okSlices Q (length (vertexes pl1)) (length (vertexes pl2)) (csSlices r) (csStarts r) (csEnds r) (csOpposing r) /\
    concat (map (fun s => removelast (vertexes s)) (csSlices r)) = map (stretchStart pl1) (done ++ rest) /\ csSlices r <> [].
Proof.
  induction rest as [|c rest IH]; intros prev done st Hp Hr HQ Hst.
  - cbn [joinLoop]. rewrite app_nil_r. now apply (end_R Q).
  - cbn [joinLoop]. assert (Hc : okIdx pl1 pl2 c) by (apply Hr; now left). destruct Hc as [C1 C2]. unfold size.
    pose proof (next_lt _ _ C1). rewrite !vget_at by auto. cbn [bind].
    pose proof Hst as Hst0. destruct st as [r curr]. destruct Hst as (bs & b & os & o & Eb & Eo & Hok & Hl & Hb & He & Hq & I1 & I2 & Hcc). cbn [fst snd].
    destruct (exists_last (l := curr) ltac:(intros ->; cbn in Hl; lia)) as (l & x & ->). rewrite app_length in Hl. cbn [length] in Hl.
    rewrite lastVertex_snoc. cbn [bind].
    assert (Ed : done ++ c :: rest = (done ++ [c]) ++ rest) by now rewrite <- app_assoc.
    destruct (fuzzyEqual (cpoint1 c) (pos x) realPrecision).
    + rewrite removelast_app1 in *. rewrite Ed. apply IH; [split; auto|intros; apply Hr; now right|intros; apply HQ; now right|].
      unfold openState. exists bs, b, os, o. split; [auto|]. split; [auto|]. split; [auto|]. split; [rewrite app_length; cbn; lia|].
      split. { destruct l as [|y l]; [cbn in Hl; lia|]. exact Hb. }
      split. { match goal with |- context [last (l ++ [?a; ?b])] => replace (l ++ [a; b]) with ((l ++ [a]) ++ [b]) by now rewrite <- app_assoc end. rewrite last_last. apply split_pos. }
      split. { destruct l as [|y l]; [cbn in Hl; lia|]. exact Hq. }
      split; [auto|]. split; [auto|].
      match goal with |- context [removelast (l ++ [?a; ?b])] => replace (l ++ [a; b]) with ((l ++ [a]) ++ [b]) by now rewrite <- app_assoc end.
      rewrite removelast_app1, app_assoc, Hcc, map_app. reflexivity.
    + destruct (end_R Q pl1 pl2 prev done _ Hp Hst0) as (r' & -> & Hok' & Hc' & _). cbn [bind].
      destruct (start_R Q pl1 pl2 c r' done (conj C1 C2) (HQ c (or_introl eq_refl)) Hok' Hc') as (st' & -> & Hst'). cbn [bind]. rewrite Ed.
      apply IH; [split; auto|intros; apply Hr; now right|intros; apply HQ; now right|auto].
Qed.

Lemma okSlices_lengths (Q : vertex -> bool -> Prop) n1 n2 ss bs es os : okSlices Q n1 n2 ss bs es os -> length bs = length ss /\ length es = length ss /\ length os = length ss.
Proof. induction 1; cbn [length]; lia. Qed.

(** the last slice takes over the end of the first *)
Lemma ok_join (Q : vertex -> bool -> Prop) n1 n2 ss : forall bs es os b0 e0 s0 x, okSlices Q n1 n2 (ss ++ [x]) bs es os -> okSlice n1 n2 s0 b0 e0 ->
  okSlices Q n1 n2 (ss ++ [mkPline (isClosed x) (removelast (vertexes x) ++ vertexes s0)]) bs (removelast es ++ [e0]) os.
Proof.
  induction ss as [|s ss IH]; intros bs es os b0 e0 s0 x H H0.
  - cbn [app] in *. inversion H as [|? b e o ? ? ? ? Hs Hq Hn]. subst. inversion Hn. subst. cbn [removelast app]. constructor; [| |constructor].
    2:{ cbn [vertexes]. destruct Hs as (_ & B & _). destruct (vertexes x) as [|y [|z l]]; cbn [length] in B; try lia. exact Hq. }
    destruct Hs as (A & B & C & D & E & F & G & I). destruct H0 as (A0 & B0 & C0 & D0 & E0 & F0 & G0 & I0).
    unfold okSlice. cbn [isClosed vertexes].
    destruct (vertexes x) as [|y [|z l]] eqn:Ex; cbn [length] in B; try lia.
    split; [auto|]. split; [rewrite app_length; cbn [removelast length]; lia|]. split; [exact C|]. split; [|auto 8].
    destruct (exists_last (l := vertexes s0) ltac:(intros E'; rewrite E' in B0; cbn in B0; lia)) as (l' & w & Ew). rewrite Ew in D0 |- *.
    rewrite last_last in D0. rewrite app_assoc, last_last. exact D0.
  - cbn [app] in *. inversion H as [|? b e o ? bs' es' os' Hs Hq Hn]. subst. destruct es' as [|e' es'].
    + apply okSlices_lengths in Hn. rewrite app_length in Hn. cbn in Hn. lia.
    + change (removelast (e :: e' :: es')) with (e :: removelast (e' :: es')). cbn [app]. constructor; [auto|auto|]. eapply IH; eauto.
Qed.

(** ** C32 *)
Theorem C32_consistent coincs pl1 pl2 : coincs <> [] -> (forall c, In c coincs -> okIdx pl1 pl2 c) ->
  exists r, sortAndjoinCoincidentSlices coincs pl1 pl2 = Ok r /\ csSlices r <> [] /\
    okSlices (flagged pl1 pl2 (map (inOrder pl1) coincs)) (length (vertexes pl1)) (length (vertexes pl2)) (csSlices r) (csStarts r) (csEnds r) (csOpposing r) /\
    (* the segments of the slices are the stretches, each exactly once *)
    Permutation (concat (map (fun s => removelast (vertexes s)) (csSlices r))) (map (fun c => stretchStart pl1 (inOrder pl1 c)) coincs).
Proof.
  intros Hne Hidx. unfold sortAndjoinCoincidentSlices.
  assert (Em : mmap (orientCoinc pl1) coincs = Ok (map (inOrder pl1) coincs)).
  { clear Hne. induction coincs as [|c l IH]; [reflexivity|]. cbn [mmap map]. unfold orientCoinc at 1.
    rewrite vget_at by (apply Hidx; now left). cbn [bind]. rewrite IH by (intros; apply Hidx; now right). reflexivity. }
  destruct coincs as [|c0 cs] eqn:Ecs; [contradiction|]. rewrite <- Ecs in *. clear Ecs c0 cs.
  rewrite Em. cbn [bind].
  pose proof (sort_perm _ (coincCmp pl1) (map (inOrder pl1) coincs)) as Hp.
  assert (Hi : forall c, In c (std_sort (coincCmp pl1) (map (inOrder pl1) coincs)) -> okIdx pl1 pl2 c).
  { intros c Hc. apply (Permutation_in _ Hp), in_map_iff in Hc. destruct Hc as (c' & <- & Hc'). unfold inOrder. destruct (tltb _ _); apply Hidx in Hc'; exact Hc'. }
  assert (HQ : forall c, In c (std_sort (coincCmp pl1) (map (inOrder pl1) coincs)) -> flagged pl1 pl2 (map (inOrder pl1) coincs) (stretchStart pl1 c) (negb (sameWay pl1 pl2 c))).
  { intros c Hc. exists c. split; [|auto]. now apply (Permutation_in _ Hp). }
  set (Q := flagged pl1 pl2 (map (inOrder pl1) coincs)) in *.
  destruct (std_sort (coincCmp pl1) (map (inOrder pl1) coincs)) as [|c0 rest].
  { apply Permutation_nil in Hp. destruct coincs; [contradiction|discriminate]. }
  destruct (start_R Q pl1 pl2 c0 (mkCS [] [] [] []) [] ltac:(apply Hi; now left) ltac:(apply HQ; now left) ltac:(constructor) eq_refl) as (st & -> & Hst). cbn [bind].
  destruct (join_R Q pl1 pl2 rest c0 _ st ltac:(apply Hi; now left) (fun c H => Hi c (or_intror H)) (fun c H => HQ c (or_intror H)) Hst) as (r & -> & Hok & Hc & Hn). cbn [bind].
  cbn [app] in Hc.
  assert (Hfin : Permutation (concat (map (fun s => removelast (vertexes s)) (csSlices r))) (map (fun c => stretchStart pl1 (inOrder pl1 c)) coincs)).
  { rewrite Hc. rewrite <- (map_map (inOrder pl1) (stretchStart pl1)). now apply Permutation_map. }
  unfold joinEnds. destruct (Nat.ltb_spec 1 (length (csSlices r))) as [Hl|Hl]; [|exists r; auto].
  inversion Hok as [Ess|s0 b0 e0 o0 sl bs es os Hs0 Hq0 Hrest Es Eb Ee Eo]; [congruence|]. rewrite <- Es in Hl, Hn, Hfin.
  destruct sl as [|s1 sl']; [cbn in Hl; lia|].
  destruct (exists_last (l := s1 :: sl') ltac:(discriminate)) as (ss & x & Esl). rewrite Esl in *. clear Esl s1 sl'.
  rewrite last_last.
  assert (Hx : okSlices Q (length (vertexes pl1)) (length (vertexes pl2)) (ss ++ [x]) bs es os) by exact Hrest.
  assert (Hx2 : (2 <= length (vertexes x))%nat).
  { clear -Hx. revert bs es os Hx. induction ss as [|s ss IH]; intros bs es os Hx; inversion Hx as [|? ? ? ? ? ? ? ? H]; subst; [apply H|eauto]. }
  destruct (exists_last (l := vertexes x) ltac:(intros E; rewrite E in Hx2; cbn in Hx2; lia)) as (lx & vx0 & Ex).
  assert (El : lastVertex x = Ok vx0) by (unfold lastVertex; rewrite Ex, rev_app_distr; reflexivity). rewrite El. cbn [bind].
  assert (Ef : vget s0 0 = Ok (at_ s0 0)) by (apply vget_at; destruct Hs0 as (_ & H & _); lia). rewrite Ef. cbn [bind].
  destruct (fuzzyEqual _ _ _).
  - eexists. split; [reflexivity|]. cbn [csSlices csStarts csEnds csOpposing]. split; [intros E; apply app_eq_nil in E; destruct E; discriminate|].
    rewrite removelast_app1. split; [eapply ok_join; eauto|].
    rewrite <- Hfin. cbn [map concat]. rewrite !map_app, !concat_app. cbn [map concat vertexes]. rewrite !app_nil_r.
    rewrite removelast_app by (destruct Hs0 as (_ & H & _); intros E; rewrite E in H; cbn in H; lia). rewrite app_assoc. apply Permutation_app_comm.
  - exists r. split; [reflexivity|]. rewrite <- Es, <- Eb, <- Ee, <- Eo. split; [discriminate|]. split; [constructor; auto|]. rewrite Es in Hfin |- *. exact Hfin.
Qed.

(** nothing to join *)
Theorem C32_empty pl1 pl2 : sortAndjoinCoincidentSlices [] pl1 pl2 = Ok (mkCS [] [] [] []).
Proof. reflexivity. Qed.

(** sizes, spelled out *)
Theorem C32_lengths coincs pl1 pl2 r : coincs <> [] -> (forall c, In c coincs -> okIdx pl1 pl2 c) ->
  sortAndjoinCoincidentSlices coincs pl1 pl2 = Ok r ->
  (1 <= length (csSlices r))%nat /\ length (csStarts r) = length (csSlices r) /\ length (csEnds r) = length (csSlices r) /\
  length (csOpposing r) = length (csSlices r) /\
  (forall s, In s (csSlices r) -> isClosed s = false /\ (2 <= length (vertexes s))%nat) /\
  (forall x, In x (csStarts r) \/ In x (csEnds r) -> (sIndex1 x < length (vertexes pl1))%nat /\ (sIndex2 x < length (vertexes pl2))%nat).
Proof.
  intros Hne Hidx E. destruct (C32_consistent coincs pl1 pl2 Hne Hidx) as (r' & E' & Hn & Hok & _). rewrite E in E'. injection E' as <-.
  pose proof (okSlices_lengths _ _ _ _ _ _ _ Hok) as (L1 & L2 & L3). split; [destruct (csSlices r); [contradiction|cbn; lia]|].
  split; [auto|]. split; [auto|]. split; [auto|]. clear -Hok. induction Hok as [|s b e o ss bs es os Hs Hq Hok [IH1 IH2]].
  - split; [intros s []|intros x [[]|[]]].
  - destruct Hs as (A & B & C & D & I1 & I2 & I3 & I4). split.
    + intros s' [<-|H]; auto.
    + intros x [[<-|H]|[<-|H]]; auto.
Qed.
End C32.
