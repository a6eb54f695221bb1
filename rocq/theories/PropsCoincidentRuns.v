(** * C32, exactly: the joined coincident slices are the maximal runs of linked stretches *)
From Coq Require Import ZArith Reals Lra Lia List Bool Arith Permutation Sorted.
From Verif Require Import Base Num MathUtils PlineSegment SpatialIndex Polyline Intersects StdLaws RGeom Spec PropsCoincident.
Import ListNotations.

Section Runs.
Context {RO : RealOps} {SL : StdLib} {SLaws : StdLaws SL}.

(** ** Specification *)
(** the vertex that ends a stretch on the first polyline's segment *)
Definition stretchEnd (pl : polyline) (c : cIntr) : vertex := splitVertex (splitAtPoint (at_ pl (cIndex1 c)) (nextV pl (cIndex1 c)) (cpoint2 c)).
(** the segment on which [p], a point of segment [i], is reached: the previous one if [p] is the start of segment [i] *)
Definition reachedOn (pl : polyline) (i : nat) (p : vec) : nat :=
  if fuzzyEqual (pos (at_ pl i)) p realPrecision then prevWrappingIndex i (length (vertexes pl)) else i.

Definition noStretch : cIntr := mkCIntr 0 0 (mkV t0 t0) (mkV t0 t0).
Definition firstOf (run : list cIntr) : cIntr := hd noStretch run.
Definition lastOf (run : list cIntr) : cIntr := last run noStretch.

(** the slice, start point, end point and direction flag of a run of stretches *)
Definition sliceOf (pl1 : polyline) (run : list cIntr) : polyline := mkPline false (map (stretchStart pl1) run ++ [stretchEnd pl1 (lastOf run)]).
Definition startOf (pl1 pl2 : polyline) (run : list cIntr) : pIntr :=
  let c := firstOf run in let p := pos (stretchStart pl1 c) in mkIntr (reachedOn pl1 (cIndex1 c) (cpoint1 c)) (reachedOn pl2 (cIndex2 c) p) p.
Definition endOf (pl2 : polyline) (run : list cIntr) : pIntr :=
  let c := lastOf run in mkIntr (cIndex1 c) (reachedOn pl2 (cIndex2 c) (cpoint2 c)) (cpoint2 c).
Definition opposes (pl1 pl2 : polyline) (run : list cIntr) : bool := negb (sameWay pl1 pl2 (firstOf run)).

(** stretch [c'] begins where stretch [c] ends *)
Definition linked (pl1 : polyline) (c c' : cIntr) : Prop := fuzzyEqual (cpoint1 c') (pos (stretchEnd pl1 c)) realPrecision = true.
Inductive chain {A} (R : A -> A -> Prop) : list A -> Prop :=
| chain_one a : chain R [a]
| chain_cons a b l : R a b -> chain R (b :: l) -> chain R (a :: b :: l).
(** no run can be continued by the next *)
Definition separate (pl1 : polyline) (r r' : list cIntr) : Prop := ~ linked pl1 (lastOf r) (firstOf r').
(** the last of the runs ends where the first begins *)
Definition closesRing (pl1 : polyline) (r r' : list cIntr) : bool := fuzzyEqual (pos (stretchEnd pl1 (lastOf r))) (pos (stretchStart pl1 (firstOf r'))) realPrecision.

Definition result (pl1 pl2 : polyline) (runs : list (list cIntr)) : coincSlices :=
  mkCS (map (sliceOf pl1) runs) (map (startOf pl1 pl2) runs) (map (endOf pl2) runs) (map (opposes pl1 pl2) runs).

(** ** Proof *)
Lemma chain_snoc {A} (R : A -> A -> Prop) l x y : chain R (l ++ [x]) -> R x y -> chain R ((l ++ [x]) ++ [y]).
Proof.
  induction l as [|a l IH]; intros Hc HR; [cbn [app] in *; constructor; [auto|constructor]|]. destruct l as [|b l].
  - cbn [app] in *. inversion Hc. subst. constructor; [auto|]. constructor; [auto|constructor].
  - cbn [app] in *. inversion Hc. subst. constructor; auto.
Qed.

Lemma last_snoc (l : list cIntr) x : lastOf (l ++ [x]) = x.
Proof. unfold lastOf. apply last_last. Qed.
Lemma first_snoc (l : list cIntr) x y : firstOf ((l ++ [x]) ++ [y]) = firstOf (l ++ [x]).
Proof. destruct l; reflexivity. Qed.

(** collected slices [done], open run [cur] *)
Definition state (pl1 pl2 : polyline) (done : list (list cIntr)) (cur : list cIntr) : coincSlices * list vertex :=
  (mkCS (map (sliceOf pl1) done) (map (startOf pl1 pl2) (done ++ [cur])) (map (endOf pl2) done) (map (opposes pl1 pl2) (done ++ [cur])),
   map (stretchStart pl1) cur ++ [stretchEnd pl1 (lastOf cur)]).

Lemma start_state pl1 pl2 done c : okIdx pl1 pl2 c -> startSlice pl1 pl2 c (result pl1 pl2 done, []) = Ok (state pl1 pl2 done [c]).
Proof.
  intros [H1 H2]. unfold startSlice, size. pose proof (next_lt _ _ H1). pose proof (next_lt _ _ H2). rewrite !vget_at by auto. cbn [bind result csSlices csStarts csEnds csOpposing].
  unfold state. rewrite !map_app. reflexivity.
Qed.

Lemma end_state pl1 pl2 done cur : cur <> [] -> okIdx pl1 pl2 (lastOf cur) -> endSlice pl2 (lastOf cur) (state pl1 pl2 done cur) = Ok (result pl1 pl2 (done ++ [cur]), []).
Proof.
  intros Hne [H1 H2]. unfold endSlice, state, size. rewrite vget_at by auto. cbn [bind csSlices csStarts csEnds csOpposing]. unfold result. rewrite !map_app. reflexivity.
Qed.

Lemma join_state pl1 pl2 rest : forall done cur x, okIdx pl1 pl2 x -> (forall c, In c rest -> okIdx pl1 pl2 c) ->
  chain (linked pl1) (cur ++ [x]) -> List.Forall (chain (linked pl1)) done -> chain (separate pl1) (done ++ [cur ++ [x]]) ->
  exists runs, joinLoop pl1 pl2 x rest (state pl1 pl2 done (cur ++ [x])) = Ok (result pl1 pl2 runs, []) /\
    concat runs = concat done ++ (cur ++ [x]) ++ rest /\ List.Forall (chain (linked pl1)) runs /\ chain (separate pl1) runs.
Proof.
  induction rest as [|c rest IH]; intros done cur x Hx Hr Hc Hd Hs.
  - cbn [joinLoop]. exists (done ++ [cur ++ [x]]). split.
    { pose proof (end_state pl1 pl2 done (cur ++ [x])) as P. rewrite last_snoc in P. apply P; [intros E; destruct cur; discriminate|auto]. }
    split; [rewrite concat_app; cbn [concat]; now rewrite !app_nil_r|]. split; [apply Forall_app; auto|auto].
  - cbn [joinLoop]. assert (Hcx : okIdx pl1 pl2 c) by (apply Hr; now left). pose proof Hcx as [C1 C2]. unfold size. pose proof (next_lt _ _ C1). rewrite !vget_at by auto. cbn [bind].
    unfold state at 1. cbn [snd]. rewrite lastVertex_snoc. cbn [bind]. rewrite last_snoc.
    destruct (fuzzyEqual (cpoint1 c) (pos (stretchEnd pl1 x)) realPrecision) eqn:El.
    + assert (E : (fst (state pl1 pl2 done (cur ++ [x])), removelast (snd (state pl1 pl2 done (cur ++ [x]))) ++ [splitVertex (splitAtPoint (at_ pl1 (cIndex1 c)) (at_ pl1 (nextWrappingIndex (cIndex1 c) (length (vertexes pl1)))) (cpoint1 c));
           splitVertex (splitAtPoint (at_ pl1 (cIndex1 c)) (at_ pl1 (nextWrappingIndex (cIndex1 c) (length (vertexes pl1)))) (cpoint2 c))]) = state pl1 pl2 done ((cur ++ [x]) ++ [c])).
      { unfold state. cbn [fst snd]. rewrite removelast_app1. f_equal.
        - f_equal; rewrite !map_app; cbn [map]; do 2 f_equal; unfold startOf, opposes; now rewrite first_snoc.
        - rewrite last_snoc. rewrite !map_app. cbn [map]. rewrite <- !app_assoc. reflexivity. }
      rewrite E. destruct (IH done (cur ++ [x]) c Hcx (fun y Hy => Hr y (or_intror Hy)) (chain_snoc _ _ _ _ Hc El) Hd) as (runs & E1 & E2 & E3 & E4).
      { clear -Hs. induction done as [|d done IH]; [constructor|]. destruct done as [|d2 done]; cbn [app] in *.
        - inversion Hs as [|? ? ? S1 S2]; subst. constructor; [|constructor]. unfold separate in *. now rewrite first_snoc.
        - inversion Hs as [|? ? ? S1 S2]; subst. constructor; [auto|]. now apply IH. }
      exists runs. split; [exact E1|]. split; [|auto]. rewrite E2. now rewrite <- !app_assoc.
    + assert (Ee : endSlice pl2 x (state pl1 pl2 done (cur ++ [x])) = Ok (result pl1 pl2 (done ++ [cur ++ [x]]), [])).
      { pose proof (end_state pl1 pl2 done (cur ++ [x])) as P. rewrite last_snoc in P. apply P; [intros E; destruct cur; discriminate|auto]. }
      rewrite Ee. cbn [bind]. rewrite start_state by auto. cbn [bind].
      destruct (IH (done ++ [cur ++ [x]]) [] c Hcx (fun y Hy => Hr y (or_intror Hy)) ltac:(constructor)) as (runs & E1 & E2 & E3 & E4).
      * apply Forall_app. auto.
      * apply chain_snoc; [auto|]. unfold separate, linked. rewrite last_snoc. cbn [app firstOf hd]. now rewrite El.
      * exists runs. split; [exact E1|]. split; [|auto]. rewrite E2, concat_app. cbn [concat app]. now rewrite app_nil_r, <- !app_assoc.
Qed.

(** ** C32 *)
(** The result describes runs of stretches: the stretches, with their ends in path order of the first polyline and sorted along it, are cut into runs wherever
    a stretch does not begin where the previous one ends; if the last run ends where the first begins the two become one run. *)
Theorem C32_runs coincs pl1 pl2 : coincs <> [] -> (forall c, In c coincs -> okIdx pl1 pl2 c) ->
  exists sorted runs, Permutation sorted (map (inOrder pl1) coincs) /\ sorted = std_sort (coincCmp pl1) (map (inOrder pl1) coincs) /\
    concat runs = sorted /\ List.Forall (chain (linked pl1)) runs /\ chain (separate pl1) runs /\
    (((length runs = 1%nat \/ closesRing pl1 (last runs []) (hd [] runs) = false) /\ sortAndjoinCoincidentSlices coincs pl1 pl2 = Ok (result pl1 pl2 runs)) \/
     (exists first mid lst, runs = first :: mid ++ [lst] /\ closesRing pl1 lst first = true /\ sortAndjoinCoincidentSlices coincs pl1 pl2 = Ok (result pl1 pl2 (mid ++ [lst ++ first])))).
Proof.
  intros Hne Hidx. unfold sortAndjoinCoincidentSlices.
  assert (Em : mmap (orientCoinc pl1) coincs = Ok (map (inOrder pl1) coincs)).
  { clear Hne. induction coincs as [|c l IH]; [reflexivity|]. cbn [mmap map]. unfold orientCoinc at 1.
    rewrite vget_at by (apply Hidx; now left). cbn [bind]. rewrite IH by (intros; apply Hidx; now right). reflexivity. }
  destruct coincs as [|c0 cs] eqn:Ecs; [contradiction|]. rewrite <- Ecs in *. clear Ecs c0 cs.
  rewrite Em. cbn [bind].
  pose proof (sort_perm _ (coincCmp pl1) (map (inOrder pl1) coincs)) as Hp.
  assert (Hi : forall c, In c (std_sort (coincCmp pl1) (map (inOrder pl1) coincs)) -> okIdx pl1 pl2 c).
  { intros c Hc. apply (Permutation_in _ Hp), in_map_iff in Hc. destruct Hc as (c' & <- & Hc'). unfold inOrder. destruct (tltb _ _); apply Hidx in Hc'; exact Hc'. }
  destruct (std_sort (coincCmp pl1) (map (inOrder pl1) coincs)) as [|c0 rest] eqn:Es.
  { apply Permutation_nil in Hp. destruct coincs; [contradiction|discriminate]. }
  change (mkCS [] [] [] []) with (result pl1 pl2 []). rewrite start_state by (apply Hi; now left). cbn [bind].
  destruct (join_state pl1 pl2 rest [] [] c0 (Hi c0 (or_introl eq_refl)) (fun c Hc => Hi c (or_intror Hc))) as (runs & E & Ec & Ek & Es'); [constructor|constructor|constructor|].
  cbn [app] in E. rewrite E. cbn [bind]. exists (c0 :: rest), runs. split; [exact Hp|]. split; [auto|]. split; [exact Ec|]. split; [exact Ek|]. split; [exact Es'|].
  unfold joinEnds. destruct runs as [|r0 runs]; [inversion Es'|]. cbn [result csSlices csStarts csEnds csOpposing map length Nat.ltb Nat.leb].
  destruct runs as [|r1 runs].
  { left. split; [now left|reflexivity]. }
  cbn [map length Nat.leb].
  destruct (exists_last (l := r1 :: runs) ltac:(discriminate)) as (mid & lst & El).
  change (sliceOf pl1 r1 :: map (sliceOf pl1) runs) with (map (sliceOf pl1) (r1 :: runs)). change (endOf pl2 r1 :: map (endOf pl2) runs) with (map (endOf pl2) (r1 :: runs)).
  change (startOf pl1 pl2 r1 :: map (startOf pl1 pl2) runs) with (map (startOf pl1 pl2) (r1 :: runs)). change (opposes pl1 pl2 r1 :: map (opposes pl1 pl2) runs) with (map (opposes pl1 pl2) (r1 :: runs)).
  rewrite El. rewrite !map_app. cbn [map]. rewrite !last_last, !removelast_app1.
  assert (Hr0 : r0 <> []) by (rewrite List.Forall_forall in Ek; intros ->; specialize (Ek [] (or_introl eq_refl)); inversion Ek).
  assert (Hlst : lst <> []) by (rewrite List.Forall_forall in Ek; intros ->; assert (F : In [] (r0 :: r1 :: runs)) by (rewrite El; right; apply in_or_app; right; now left); specialize (Ek [] F); inversion Ek).
  destruct r0 as [|a0 r0]; [contradiction|].
  assert (E1 : lastVertex (sliceOf pl1 lst) = Ok (stretchEnd pl1 (lastOf lst))) by apply lastVertex_snoc. rewrite E1. cbn [bind].
  assert (E2 : vget (sliceOf pl1 (a0 :: r0)) 0 = Ok (stretchStart pl1 a0)) by reflexivity. rewrite E2. cbn [bind].
  destruct (fuzzyEqual (pos (stretchEnd pl1 (lastOf lst))) (pos (stretchStart pl1 a0)) realPrecision) eqn:Ef.
  - right. exists (a0 :: r0), mid, lst. split; [reflexivity|]. split; [exact Ef|]. f_equal. unfold result. rewrite !map_app. cbn [map]. f_equal.
    + do 2 f_equal. unfold sliceOf. cbn [isClosed vertexes]. f_equal. rewrite removelast_app1. change (map (stretchStart pl1) lst ++ map (stretchStart pl1) (a0 :: r0) ++ [stretchEnd pl1 (lastOf (a0 :: r0))] = map (stretchStart pl1) (lst ++ a0 :: r0) ++ [stretchEnd pl1 (lastOf (lst ++ a0 :: r0))]).
      rewrite map_app, <- app_assoc. do 4 f_equal. unfold lastOf. destruct (exists_last (l := a0 :: r0) ltac:(discriminate)) as (l & z & ->). now rewrite app_assoc, !last_last.
    + do 2 f_equal. unfold startOf, firstOf. now destruct lst.
    + do 2 f_equal. unfold endOf, lastOf. destruct (exists_last (l := a0 :: r0) ltac:(discriminate)) as (l & z & ->). now rewrite app_assoc, !last_last.
    + do 2 f_equal. unfold opposes, firstOf. now destruct lst.
  - left. split; [right; cbn [hd]; change ((a0 :: r0) :: mid ++ [lst]) with (((a0 :: r0) :: mid) ++ [lst]); rewrite last_last; exact Ef|].
    unfold result. cbn [map]. rewrite !map_app. reflexivity.
Qed.
End Runs.

(** ** In exact arithmetic the stretches are sorted along the first polyline *)
Section Exact.
Context {SL : StdLib} {SLaws : StdLaws SL}.
Local Open Scope R_scope.

(** stretch [a] does not begin after stretch [b] *)
Definition notAfter (pl : polyline) (a b : cIntr) : Prop :=
  (cIndex1 a < cIndex1 b)%nat \/ (cIndex1 a = cIndex1 b /\ dist (pos (at_ pl (cIndex1 a))) (cpoint1 a) <= dist (pos (at_ pl (cIndex1 a))) (cpoint1 b)).

Lemma coincCmp_weak pl : strictWeak (coincCmp pl).
Proof.
  split.
  - intros a. unfold coincCmp. rewrite Nat.eqb_refl. cbn [negb]. apply Rltb_false. lra.
  - intros a b c. unfold coincCmp. rcbn.
    destruct (Nat.eqb_spec (cIndex1 a) (cIndex1 b)) as [E1|E1], (Nat.eqb_spec (cIndex1 b) (cIndex1 c)) as [E2|E2], (Nat.eqb_spec (cIndex1 a) (cIndex1 c)) as [E3|E3]; cbn [negb];
      rewrite ?Rltb_spec, ?Nat.ltb_lt; try (exfalso; congruence); try (intros; lia). rewrite <- E1. intros. lra.
  - intros a b c. unfold coincCmp. rcbn. rewrite (Nat.eqb_sym (cIndex1 b) (cIndex1 a)), (Nat.eqb_sym (cIndex1 c) (cIndex1 b)), (Nat.eqb_sym (cIndex1 c) (cIndex1 a)).
    destruct (Nat.eqb_spec (cIndex1 a) (cIndex1 b)) as [E1|E1], (Nat.eqb_spec (cIndex1 b) (cIndex1 c)) as [E2|E2], (Nat.eqb_spec (cIndex1 a) (cIndex1 c)) as [E3|E3]; cbn [negb];
      rewrite ?Rltb_false, ?Nat.ltb_ge; try (exfalso; congruence); try (intros; lia). rewrite <- E3, <- E1. intros. lra.
Qed.

Lemma sort_notAfter pl l : StronglySorted (notAfter pl) (std_sort (coincCmp pl) l).
Proof.
  pose proof (sort_sorted _ _ l (coincCmp_weak pl)) as S. induction S as [|a l' S IH F]; constructor; auto. eapply List.Forall_impl; [|exact F].
  intros b Hb. unfold coincCmp in Hb. unfold notAfter. destruct (Nat.eqb_spec (cIndex1 b) (cIndex1 a)) as [E|E]; cbn [negb] in Hb.
  - right. split; [auto|]. rewrite E in Hb. apply Rltb_false in Hb. unfold distSquared, dot, vsub in Hb. rcbn. cbn [vx vy] in Hb. unfold dist. apply sqrt_le_1_alt. nra.
  - left. apply Nat.ltb_ge in Hb. lia.
Qed.

(** sortAndjoinCoincidentSlices in full *)
Theorem C32_exact coincs pl1 pl2 : coincs <> [] -> (forall c, In c coincs -> okIdx pl1 pl2 c) ->
  exists sorted runs r, sortAndjoinCoincidentSlices coincs pl1 pl2 = Ok r /\
    Permutation sorted (map (inOrder pl1) coincs) /\ StronglySorted (notAfter pl1) sorted /\
    concat runs = sorted /\ List.Forall (chain (linked pl1)) runs /\ chain (separate pl1) runs /\
    ((r = result pl1 pl2 runs /\ (length runs = 1%nat \/ closesRing pl1 (last runs []) (hd [] runs) = false)) \/
     exists first mid lst, runs = first :: mid ++ [lst] /\ closesRing pl1 lst first = true /\ r = result pl1 pl2 (mid ++ [lst ++ first])).
Proof.
  intros Hne Hidx. destruct (C32_runs coincs pl1 pl2 Hne Hidx) as (sorted & runs & Hp & Es & Ec & Hc & Hs & [(Hr & E)|(first & mid & lst & Er & Hr & E)]).
  - exists sorted, runs. eexists. split; [exact E|]. split; [auto|]. split; [rewrite Es; apply sort_notAfter|]. auto 6.
  - exists sorted, runs. eexists. split; [exact E|]. split; [auto|]. split; [rewrite Es; apply sort_notAfter|]. split; [auto|]. split; [auto|]. split; [auto|]. right. eauto 6.
Qed.

(** two unit stretches of a square that continue each other form one slice of three vertices: hypotheses met, three runs cannot occur *)
Example C32_exact_square : let sq := mkPline true [mkVertex 0 0 0; mkVertex 1 0 0; mkVertex 1 1 0; mkVertex 0 1 0] in
  let cs := [mkCIntr 1 1 (mkV 1 0) (mkV 1 1); mkCIntr 0 0 (mkV 0 0) (mkV 1 0)] in cs <> [] /\ forall c, In c cs -> okIdx sq sq c.
Proof. split; [discriminate|]. intros c [<-|[<-|[]]]; split; cbn; lia. Qed.
End Exact.
