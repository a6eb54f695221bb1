(** * C42-C45: the C API *)
From Coq Require Import ZArith NArith List Bool Arith Lia Permutation.
From Verif Require Import Base Num MathUtils PlineSegment SpatialIndex Polyline Intersects Combine Offset CApi PropsCombine PropsParallel.
Import ListNotations.

(** std::vector growth: the new capacity suffices *)
Class VecLaw (VP : VecPolicy) : Prop := grow_enough : forall cap n, cap < n -> n <= vec_grow cap n.

Section CApiProps.
Context {RO : RealOps} {SL : StdLib} {VP : VecPolicy} {VL : VecLaw VP}.

(** ** C42 *)
(** *** Specification: a polyline handle denotes a closed flag and a sequence of vertices *)
Definition value : Type := bool * list vertex.

(** calls on an existing handle *)
Inductive plineOp :=
| SetData (vs : list vertex) | AddV (v : vertex) | RemoveRange (start count : N) | Clear | SetClosed (c : bool) | SetCapacity (n : nat).

(** what each call does to the value; remove_range needs its range inside the sequence *)
Inductive effect : plineOp -> value -> value -> Prop :=
| e_set c vs vs' : effect (SetData vs') (c, vs) (c, vs')
| e_add c vs v : effect (AddV v) (c, vs) (c, vs ++ [v])
| e_remove c before gone after : effect (RemoveRange (N.of_nat (length before)) (N.of_nat (length gone))) (c, before ++ gone ++ after) (c, before ++ after)
| e_clear c vs : effect Clear (c, vs) (c, [])
| e_closed c vs c' : effect (SetClosed c') (c, vs) (c', vs)
| e_capacity c vs n : effect (SetCapacity n) (c, vs) (c, vs).

Inductive plineCall := CNew (data : option (list vertex)) (count : nat) (closed : bool) | CDelete (a : nat) | COp (a : nat) (o : plineOp).

(** the world of a client: the values of the handles created so far, in order of creation; deleted ones are None *)
Inductive specStep : list (option value) -> plineCall -> list (option value) -> Prop :=
| s_new_null w n c : specStep w (CNew None n c) (w ++ [Some (c, [])])
| s_new w vs c : specStep w (CNew (Some vs) (length vs) c) (w ++ [Some (c, vs)])
| s_delete w1 x w2 : specStep (w1 ++ Some x :: w2) (CDelete (length w1)) (w1 ++ None :: w2)
| s_op w1 x w2 o x' : effect o x x' -> specStep (w1 ++ Some x :: w2) (COp (length w1) o) (w1 ++ Some x' :: w2).
Inductive specRun : list (option value) -> list plineCall -> list (option value) -> Prop :=
| sr_nil w : specRun w [] w
| sr_cons w c w1 cs w2 : specStep w c w1 -> specRun w1 cs w2 -> specRun w (c :: cs) w2.

(** *** The same calls in the model *)
Definition doOp (h : heap) (a : nat) (o : plineOp) : res heap :=
  match o with
  | SetData vs => pline_set_vertex_data h a vs
  | AddV v => pline_add_vertex h a v
  | RemoveRange s n => pline_remove_range h a s n
  | Clear => pline_clear h a
  | SetClosed c => pline_set_is_closed h a c
  | SetCapacity n => pline_set_capacity h a n
  end.
Definition doCall (h : heap) (c : plineCall) : res heap :=
  match c with
  | CNew data n c => Ok (fst (pline_new h data n c))
  | CDelete a => pline_delete h (Some a)
  | COp a o => doOp h a o
  end.

(** *** Proof *)
Definition valueOf (p : cpline) : value := (isClosed (cdata p), vertexes (cdata p)).
Definition abs (h : heap) : list (option value) := map (option_map valueOf) (hPlines h).

Lemma abs_at h w1 x w2 : abs h = w1 ++ Some x :: w2 -> exists p, getP h (length w1) = Ok p /\ valueOf p = x.
Proof.
  intros E. assert (N : nth_error (abs h) (length w1) = Some (Some x)) by (rewrite E, nth_error_app2, Nat.sub_diag by lia; reflexivity).
  unfold abs in N. rewrite nth_error_map in N. destruct (nth_error (hPlines h) (length w1)) as [[p|]|] eqn:Ep; cbn in N; try discriminate. injection N as <-. exists p. split; [|reflexivity]. apply rgetI_inv. exact Ep.
Qed.

Lemma upd_app {A} (l1 : list A) x l2 y : upd (l1 ++ x :: l2) (length l1) y = l1 ++ y :: l2.
Proof. induction l1 as [|z l1 IH]; cbn; [reflexivity|]. now rewrite IH. Qed.
Lemma map_upd {A B} (f : A -> B) l i a : map f (upd l i a) = upd (map f l) i (f a).
Proof. revert i. induction l as [|x l IH]; intros [|i]; cbn; try reflexivity. now rewrite IH. Qed.

Lemma setP_abs h w1 x w2 q : abs h = w1 ++ Some x :: w2 -> exists h', setP h (length w1) q = Ok h' /\ abs h' = w1 ++ Some (valueOf q) :: w2 /\ hLists h' = hLists h.
Proof.
  intros E. destruct (abs_at _ _ _ _ E) as (p & Ep & _). unfold setP. rewrite Ep. cbn [bind]. unfold getP in Ep. apply rgetI_inv in Ep.
  assert (L : length w1 < length (hPlines h)) by (apply nth_error_Some; rewrite Ep; discriminate). rewrite rset_ok by auto. cbn [bind]. eexists. split; [reflexivity|].
  split; [|reflexivity]. unfold abs in *. cbn [hPlines]. rewrite map_upd, E. apply upd_app.
Qed.

Lemma op_refines h w1 x w2 o x' : abs h = w1 ++ Some x :: w2 -> effect o x x' -> exists h', doOp h (length w1) o = Ok h' /\ abs h' = w1 ++ Some x' :: w2.
Proof.
  intros E He. destruct (abs_at _ _ _ _ E) as (p & Ep & Ev).
  assert (K : forall q, valueOf q = x' -> doOp h (length w1) o = setP h (length w1) q -> exists h', doOp h (length w1) o = Ok h' /\ abs h' = w1 ++ Some x' :: w2).
  { intros q <- Eq. destruct (setP_abs h w1 x w2 q E) as (h' & A & B & _). exists h'. now rewrite Eq. }
  destruct He; unfold valueOf in Ev; injection Ev as Ec Evs; cbn [doOp] in *;
    unfold pline_set_vertex_data, pline_add_vertex, pline_remove_range, pline_clear, pline_set_is_closed, pline_set_capacity in *; rewrite Ep in *; cbn [bind] in *.
  - eapply K; [|reflexivity]. unfold valueOf, copyToPline. cbn. now rewrite Ec.
  - eapply K; [|reflexivity]. unfold valueOf, addVertex. cbn. now rewrite Ec, Evs.
  - rewrite Evs in *. destruct (N.leb_spec (N.of_nat (length before) + N.of_nat (length gone)) (N.of_nat (length (before ++ gone ++ after)))) as [_|H]; [|exfalso; rewrite !app_length in H; lia].
    eapply K; [|reflexivity]. unfold valueOf. cbn. rewrite Ec. f_equal. rewrite <- Nat2N.inj_add, !Nat2N.id. rewrite firstn_app, Nat.sub_diag, firstn_all. cbn [firstn]. rewrite app_nil_r. f_equal.
    rewrite app_assoc, skipn_app. rewrite skipn_all2 by (rewrite app_length; lia). cbn [app]. now rewrite app_length, Nat.sub_diag.
  - eapply K; [|reflexivity]. unfold valueOf. cbn. now rewrite Ec.
  - eapply K; [|reflexivity]. unfold valueOf, setClosed. cbn. now rewrite Evs.
  - eapply K; [|reflexivity]. unfold valueOf. cbn. now rewrite Ec, Evs.
Qed.

Lemma call_refines h c w' : specStep (abs h) c w' -> exists h', doCall h c = Ok h' /\ abs h' = w'.
Proof.
  remember (abs h) as w eqn:Ew. intros S. symmetry in Ew. destruct S as [w n c|w vs c|w1 x w2|w1 x w2 o x' He]; cbn [doCall].
  - eexists. split; [reflexivity|]. unfold pline_new, allocP, abs in *. cbn. rewrite map_app, Ew. reflexivity.
  - eexists. split; [reflexivity|]. unfold pline_new, allocP, abs in *. cbn. rewrite map_app, Ew, firstn_all. reflexivity.
  - destruct (abs_at _ _ _ _ Ew) as (p & Ep & _). cbn [pline_delete]. unfold freeP. rewrite Ep. cbn [bind]. unfold getP in Ep. apply rgetI_inv in Ep.
    assert (L : length w1 < length (hPlines h)) by (apply nth_error_Some; rewrite Ep; discriminate). rewrite rset_ok by auto. cbn [bind]. eexists. split; [reflexivity|].
    unfold abs in *. cbn [hPlines]. rewrite map_upd, Ew. apply upd_app.
  - eapply op_refines; eauto.
Qed.

(** Any history of valid calls succeeds, and afterwards every live handle shows exactly the value of the specification. *)
Theorem C42_history calls w : specRun [] calls w -> exists h, mfold doCall calls emptyHeap = Ok h /\
  forall a c vs, nth_error w a = Some (Some (c, vs)) ->
    pline_is_closed h a = Ok c /\
    (N.of_nat (length vs) < 2 ^ 32 -> pline_vertex_count h a = Ok (N.of_nat (length vs)) /\ pline_vertex_data h a = Ok vs)%N.
Proof.
  assert (G : forall calls h w, specRun (abs h) calls w -> exists h', mfold doCall calls h = Ok h' /\ abs h' = w).
  { clear. induction calls as [|c calls IH]; intros h w H; inversion H; subst; cbn [mfold]; [eauto|].
    match goal with S : specStep (abs h) c ?w1 |- _ => destruct (call_refines h c w1 S) as (h1 & -> & E1) end. cbn [bind]. subst. eapply IH; eauto. }
  intros H. destruct (G calls emptyHeap w H) as (h & E & <-). exists h. split; [exact E|]. intros a c vs Ha.
  unfold abs in Ha. rewrite nth_error_map in Ha. destruct (nth_error (hPlines h) a) as [[p|]|] eqn:Ep; cbn in Ha; try discriminate. injection Ha as <- <-.
  assert (Eg : getP h a = Ok p) by (now apply rgetI_inv). unfold pline_is_closed, pline_vertex_count, pline_vertex_data. rewrite Eg. cbn [bind]. split; [reflexivity|].
  intros L. unfold toU32, size. rewrite N.mod_small by auto. rewrite Nat2N.id, firstn_all. auto.
Qed.

(** capacity of the vector behind a handle *)
Definition capOf (h : heap) (a : nat) (n : nat) : Prop := exists p, getP h a = Ok p /\ ccap p = n.
Definition countOf (h : heap) (a : nat) (n : nat) : Prop := exists p, getP h a = Ok p /\ length (vertexes (cdata p)) = n.
Definition roomy (h : heap) : Prop := forall a p, getP h a = Ok p -> length (vertexes (cdata p)) <= ccap p.

Lemma reserve_ge cap n : n <= reserveCap cap n /\ cap <= reserveCap cap n.
Proof. unfold reserveCap. destruct (Nat.leb_spec n cap); [lia|]. pose proof (grow_enough cap n ltac:(lia)). lia. Qed.

Lemma setP_get h a q h' : setP h a q = Ok h' -> getP h' a = Ok q /\ forall b, b <> a -> getP h' b = getP h b.
Proof.
  unfold setP. intros E. apply bind_inv in E. destruct E as (p & Ep & E). apply bind_inv in E. destruct E as (ps & Es & E). injection E as <-. apply rset_inv in Es. destruct Es as [L ->].
  unfold getP. cbn [hPlines]. split; [apply rgetI_inv; now apply nth_error_upd_eq|]. intros b Hb. unfold rgetI. rewrite nth_error_upd_ne by auto. reflexivity.
Qed.

(** The shape of a call on a handle: the polyline is replaced, its capacity does not shrink and stays sufficient. *)
Lemma op_capacity h a o h' : doOp h a o = Ok h' -> exists p q, getP h a = Ok p /\ getP h' a = Ok q /\ (forall b, b <> a -> getP h' b = getP h b) /\
  ccap p <= ccap q /\ (length (vertexes (cdata p)) <= ccap p -> length (vertexes (cdata q)) <= ccap q) /\
  (forall n, o = SetCapacity n -> n <= ccap q) /\ (o = Clear -> ccap q = ccap p /\ isClosed (cdata q) = isClosed (cdata p)).
Proof.
  intros E. assert (K : forall p q, getP h a = Ok p -> setP h a q = Ok h' -> ccap p <= ccap q -> (length (vertexes (cdata p)) <= ccap p -> length (vertexes (cdata q)) <= ccap q) ->
    (forall n, o = SetCapacity n -> n <= ccap q) -> (o = Clear -> ccap q = ccap p /\ isClosed (cdata q) = isClosed (cdata p)) ->
    exists p q, getP h a = Ok p /\ getP h' a = Ok q /\ (forall b, b <> a -> getP h' b = getP h b) /\ ccap p <= ccap q /\ (length (vertexes (cdata p)) <= ccap p -> length (vertexes (cdata q)) <= ccap q) /\
  (forall n, o = SetCapacity n -> n <= ccap q) /\ (o = Clear -> ccap q = ccap p /\ isClosed (cdata q) = isClosed (cdata p))).
  { intros p q Ep Es C1 C2 C3 C4. apply setP_get in Es. destruct Es as [Eq Ef]. exists p, q. auto 10. }
  destruct o; cbn [doOp] in E; unfold pline_set_vertex_data, pline_add_vertex, pline_remove_range, pline_clear, pline_set_is_closed, pline_set_capacity in E;
    apply bind_inv in E; destruct E as (p & Ep & E).
  - pose proof (reserve_ge (ccap p) (length vs)). apply (K p _ Ep E); cbn [ccap cdata vertexes isClosed copyToPline addVertex setClosed length]; [lia|intros; lia|discriminate|discriminate].
  - pose proof (reserve_ge (ccap p) (S (size (cdata p)))) as R. unfold size in R. apply (K p _ Ep E); cbn [ccap cdata vertexes isClosed copyToPline addVertex setClosed length]; unfold size; [lia| |discriminate|discriminate].
    intros _. rewrite app_length. cbn. lia.
  - destruct (N.leb_spec (start + count) (N.of_nat (length (vertexes (cdata p))))); [|discriminate]. apply (K p _ Ep E); cbn [ccap cdata vertexes isClosed copyToPline addVertex setClosed length]; [lia| |discriminate|discriminate].
    rewrite app_length, firstn_length, skipn_length. lia.
  - apply (K p _ Ep E); cbn [ccap cdata vertexes isClosed copyToPline addVertex setClosed length]; [lia|lia|discriminate|auto].
  - apply (K p _ Ep E); cbn [ccap cdata vertexes isClosed copyToPline addVertex setClosed length]; [lia|auto|discriminate|discriminate].
  - pose proof (reserve_ge (ccap p) n). apply (K p _ Ep E); cbn [ccap cdata vertexes isClosed copyToPline addVertex setClosed length]; [lia|lia| |discriminate]. intros n0 E0. injection E0 as <-. lia.
Qed.

(** what a client sees of it (the C function returns 32 bits) *)
Theorem C42_capacity_reported h a m : capOf h a m -> (N.of_nat m < 2 ^ 32)%N -> pline_capacity h a = Ok (N.of_nat m).
Proof. intros (p & Ep & <-) H. unfold pline_capacity. rewrite Ep. cbn [bind]. unfold toU32. now rewrite N.mod_small. Qed.

(** a new polyline without data has room for the requested number of vertexes; one with data has room for them *)
Theorem C42_new_capacity h data n c h' a m : pline_new h data n c = (h', a) -> capOf h' a m -> match data with Some vs => length (firstn n vs) <= m | None => n <= m end.
Proof.
  intros E (p & Ep & <-). unfold pline_new, allocP in E. injection E as <- <-. unfold getP in Ep. cbn [hPlines] in Ep. apply rgetI_inv in Ep. rewrite nth_error_app2, Nat.sub_diag in Ep by lia. cbn in Ep. injection Ep as <-. cbn [ccap].
  destruct data as [vs|]; cbn; [exact (proj1 (reserve_ge 0 (length (firstn n vs))))|exact (proj1 (reserve_ge 0 n))].
Qed.

Theorem C42_capacity_monotone h a o h' n m : doOp h a o = Ok h' -> capOf h a n -> capOf h' a m -> n <= m.
Proof. intros E (p & Ep & <-) (q & Eq & <-). destruct (op_capacity _ _ _ _ E) as (p' & q' & E1 & E2 & _ & H & _). congruence. Qed.

Theorem C42_set_capacity h a k h' m : doOp h a (SetCapacity k) = Ok h' -> capOf h' a m -> k <= m.
Proof. intros E (q & Eq & <-). destruct (op_capacity _ _ _ _ E) as (p' & q' & E1 & E2 & _ & _ & _ & H & _). assert (q' = q) by congruence. subst. now apply H. Qed.

Theorem C42_clear_keeps_capacity h a h' n m : doOp h a Clear = Ok h' -> capOf h a n -> capOf h' a m -> n = m.
Proof. intros E (p & Ep & <-) (q & Eq & <-). destruct (op_capacity _ _ _ _ E) as (p' & q' & E1 & E2 & _ & _ & _ & _ & H). specialize (H eq_refl). destruct H. congruence. Qed.

Lemma roomy_op h a o h' : doOp h a o = Ok h' -> roomy h -> roomy h'.
Proof.
  intros E H b q Eq. destruct (op_capacity _ _ _ _ E) as (p & q' & E1 & E2 & Ef & _ & K & _). destruct (Nat.eq_dec b a) as [->|Hne]; [|apply (H b); now rewrite <- (Ef b Hne)].
  assert (q' = q) by congruence. subst. apply K. now apply (H a).
Qed.

Theorem C42_capacity_enough calls h : mfold doCall calls emptyHeap = Ok h -> forall a n m, countOf h a n -> capOf h a m -> n <= m.
Proof.
  intros E. assert (R : roomy h).
  { apply (mfold_inv doCall roomy calls) in E; [exact E| |].
    - intros h0 c h1 _ E0 H. destruct c as [data n c|a|a o]; cbn [doCall] in E0.
      + injection E0 as <-. intros b q Eq. unfold getP, pline_new, allocP in Eq. cbn [fst hPlines] in Eq. apply rgetI_inv in Eq. destruct (Nat.lt_ge_cases b (length (hPlines h0))) as [L|L].
        * rewrite nth_error_app1 in Eq by auto. apply (H b). now apply rgetI_inv.
        * rewrite nth_error_app2 in Eq by auto. destruct (b - length (hPlines h0)) as [|k]; [|destruct k; discriminate]. cbn in Eq. injection Eq as <-. cbn [cdata ccap]. destruct data as [vs|]; cbn.
          -- pose proof (reserve_ge 0 (length (firstn n vs))). lia.
          -- lia.
      + cbn [pline_delete] in E0. unfold freeP in E0. apply bind_inv in E0. destruct E0 as (p & Ep & E0). apply bind_inv in E0. destruct E0 as (ps & Es & E0). injection E0 as <-. apply rset_inv in Es. destruct Es as [L ->].
        intros b q Eq. unfold getP in Eq. cbn [hPlines] in Eq. apply rgetI_inv in Eq. destruct (Nat.eq_dec a b) as [->|Hne]; [rewrite nth_error_upd_eq in Eq by auto; discriminate|].
        rewrite nth_error_upd_ne in Eq by auto. apply (H b). now apply rgetI_inv.
      + eapply roomy_op; eauto.
    - intros a p Ep. unfold getP, rgetI in Ep. cbn in Ep. destruct a; discriminate. }
  intros a n m (p & Ep & <-) (q & Eq & <-). assert (p = q) by congruence. subst. now apply (R a).
Qed.

(** ** C45 *)
Definition inRange (size : nat) (start count : N) : Prop := (start + count <= N.of_nat size)%N.

Theorem C45_exact h a p start count : getP h a = Ok p -> inRange (length (vertexes (cdata p))) start count ->
  exists before gone after h', vertexes (cdata p) = before ++ gone ++ after /\ length before = N.to_nat start /\ length gone = N.to_nat count /\
    pline_remove_range h a start count = Ok h' /\ exists q, getP h' a = Ok q /\ vertexes (cdata q) = before ++ after /\ isClosed (cdata q) = isClosed (cdata p).
Proof.
  intros Ep Hr. unfold inRange in Hr. set (vs := vertexes (cdata p)) in *.
  exists (firstn (N.to_nat start) vs), (firstn (N.to_nat count) (skipn (N.to_nat start) vs)), (skipn (N.to_nat count) (skipn (N.to_nat start) vs)).
  unfold pline_remove_range. rewrite Ep. cbn [bind]. fold vs. destruct (N.leb_spec (start + count) (N.of_nat (length vs))) as [_|H]; [|lia].
  set (q := mkCP_ _ _). assert (exists h', setP h a q = Ok h') as [h' Eh].
  { unfold setP. rewrite Ep. cbn [bind]. unfold getP in Ep. apply rgetI_inv in Ep. rewrite rset_ok by (apply nth_error_Some; rewrite Ep; discriminate). cbn [bind]. eauto. }
  exists h'. rewrite !firstn_skipn. split; [reflexivity|]. rewrite !firstn_length, skipn_length. split; [lia|]. split; [lia|]. split; [exact Eh|].
  apply setP_get in Eh. destruct Eh as [Eq _]. exists q. split; [exact Eq|]. unfold q. cbn [cdata vertexes isClosed]. split; [|reflexivity]. f_equal.
  rewrite N2Nat.inj_add. generalize vs as ws. clear. induction (N.to_nat start) as [|k IH]; intros ws; [reflexivity|]. destruct ws as [|x ws]; cbn [skipn plus]; [destruct (N.to_nat count); reflexivity|apply IH].
Qed.

Theorem C45_out_of_range h a p start count : getP h a = Ok p -> ~ inRange (length (vertexes (cdata p))) start count -> pline_remove_range h a start count = UB.
Proof.
  intros Ep Hr. unfold inRange in Hr. unfold pline_remove_range. rewrite Ep. cbn [bind]. destruct (N.leb_spec (start + count) (N.of_nat (length (vertexes (cdata p))))); [lia|reflexivity].
Qed.

(** For every vertex count of at least 2 some 32-bit arguments pass both assertions although the range is not inside the polyline. *)
Theorem C45_bypass size : (2 <= size)%nat -> (N.of_nat size < 2 ^ 32)%N -> exists start count, (start < 2 ^ 32 /\ count < 2 ^ 32)%N /\ remove_range_asserts size start count = true /\ ~ inRange size start count.
Proof.
  intros H1 H2. exists (N.of_nat size - 1)%N, (2 ^ 32 - (N.of_nat size - 1))%N. split; [lia|]. unfold remove_range_asserts, inRange.
  replace (N.of_nat size - 1 + (2 ^ 32 - (N.of_nat size - 1)))%N with (2 ^ 32)%N by lia. rewrite N.mod_same by lia. split; [|lia].
  apply andb_true_intro. split; [apply N.ltb_lt; lia|apply N.leb_le; lia].
Qed.

(** With at most one vertex, or when the sum does not wrap, the assertions suffice. *)
Theorem C45_asserts_sound size start count : (start < 2 ^ 32 -> count < 2 ^ 32 -> (size <= 1)%nat \/ start + count < 2 ^ 32 -> remove_range_asserts size start count = true -> inRange size start count)%N.
Proof.
  intros Hs Hc H A. unfold remove_range_asserts, inRange in *. apply andb_prop in A. destruct A as [A1 A2]. apply N.ltb_lt in A1. apply N.leb_le in A2.
  assert (start + count < 2 ^ 32)%N by (destruct H; lia). now rewrite N.mod_small in A2 by auto.
Qed.

(** ** C44 *)
(** list [l] of heap [h] shows exactly these polylines, in order *)
Definition shows (h : heap) (l : nat) (plines : list polyline) : Prop :=
  list_count h l = Ok (toU32 (length plines)) /\
  forall i p, nth_error plines i = Some p -> exists a c, list_get h l i = Ok a /\ getP h a = Ok c /\ cdata c = p.
(** everything the client had before is still there, unchanged *)
Definition extends (h h' : heap) : Prop := (forall a p, getP h a = Ok p -> getP h' a = Ok p) /\ (forall l c, getL h l = Ok c -> getL h' l = Ok c).

Lemma move_spec ps : forall h h' as_, moveToList h ps = (h', as_) ->
  hPlines h' = hPlines h ++ map (fun p => Some (mkCP_ p (reserveCap 0 (size p)))) ps /\ hLists h' = hLists h /\ as_ = seq (length (hPlines h)) (length ps).
Proof.
  induction ps as [|p ps IH]; intros h h' as_ E; cbn [moveToList] in E.
  - injection E as <- <-. rewrite app_nil_r. auto.
  - unfold allocP in E. destruct (moveToList _ ps) as [h2 as2] eqn:E2. injection E as <- <-. apply IH in E2. cbn [hPlines hLists] in E2. destruct E2 as (A & B & ->).
    rewrite A, B, <- app_assoc. cbn [map app length seq]. split; [reflexivity|]. split; [reflexivity|]. f_equal. rewrite app_length. cbn. f_equal. lia.
Qed.

Lemma get_app {A} (l : list (option A)) l2 i x : rgetI l i = Ok x -> rgetI (l ++ l2) i = Ok x.
Proof. rewrite !rgetI_inv. intros H. rewrite nth_error_app1; [auto|]. apply nth_error_Some. rewrite H. discriminate. Qed.

Lemma get_last {A} (l : list (option A)) x : rgetI (l ++ [Some x]) (length l) = Ok x.
Proof. apply rgetI_inv. rewrite nth_error_app2, Nat.sub_diag by lia. reflexivity. Qed.

Lemma shows_new h l (ps : list polyline) P R : hPlines h = P ++ map (fun p => Some (mkCP_ p (reserveCap 0 (size p)))) ps ++ R ->
  nth_error (hLists h) l = Some (Some (seq (length P) (length ps))) -> shows h l ps.
Proof.
  intros EP Hl. assert (G : getL h l = Ok (seq (length P) (length ps))) by (now apply rgetI_inv).
  split.
  - unfold list_count. rewrite G. cbn [bind]. now rewrite seq_length.
  - intros i p Hi. assert (Li : i < length ps) by (apply nth_error_Some; rewrite Hi; discriminate).
    exists (length P + i), (mkCP_ p (reserveCap 0 (size p))). unfold list_get. rewrite G. cbn [bind]. split; [|split; [|reflexivity]].
    + apply rget_inv. rewrite (nth_error_nth' _ 0) by (rewrite seq_length; auto). now rewrite seq_nth.
    + unfold getP. rewrite EP. apply rgetI_inv. rewrite nth_error_app2 by lia. replace (length P + i - length P) with i by lia.
      rewrite nth_error_app1 by (rewrite map_length; auto). rewrite nth_error_map, Hi. reflexivity.
Qed.

(** cavc_parallel_offset fails only if parallelOffset does; otherwise the output list shows its results. Only bit 0 of the flags counts. *)
Theorem C44_offset h a p delta flags : getP h a = Ok p ->
  match parallelOffset (cdata p) delta (Z.odd flags) with
  | Ok rs => exists h' l, api_parallel_offset h a delta flags = Ok (h', l) /\ shows h' l rs /\ extends h h'
  | UB => api_parallel_offset h a delta flags = UB
  | Fuel => api_parallel_offset h a delta flags = Fuel
  end.
Proof.
  intros Ep. unfold api_parallel_offset. rewrite Ep. cbn [bind].
  assert (Ef : negb (Z.land flags 1 =? 0)%Z = Z.odd flags).
  { change 1%Z with (Z.ones 1). rewrite Z.land_ones by lia. change (2 ^ 1)%Z with 2%Z. rewrite Zmod_odd. destruct (Z.odd flags); reflexivity. }
  rewrite Ef. destruct (parallelOffset (cdata p) delta (Z.odd flags)) as [rs| |]; cbn [bind]; try reflexivity.
  destruct (moveToList h rs) as [h1 as_] eqn:Em. apply move_spec in Em. destruct Em as (A & B & ->). unfold allocL. do 2 eexists. split; [reflexivity|]. rewrite A, B. split.
  - apply (shows_new _ _ _ (hPlines h) []); cbn [hPlines hLists]; [now rewrite app_nil_r|]. rewrite nth_error_app2, Nat.sub_diag by lia. reflexivity.
  - split; intros x y Hx; unfold getP, getL in *; cbn [hPlines hLists]; now apply get_app.
Qed.

(** the query functions report the queried property of the denoted polyline; the closest point index is the start of an existing segment (exact as a
    uint32_t below 2^32 vertices) *)
Theorem C44_queries h a p pt : getP h a = Ok p ->
  api_get_path_length h a = Ok (getPathLength (cdata p)) /\ api_get_area h a = Ok (getArea (cdata p)) /\
  api_get_winding_number h a pt = Ok (getWindingNumber (cdata p) pt) /\ api_get_extents h a = Ok (getExtents (cdata p)) /\
  forall c, closestPoint (cdata p) pt = Ok c -> (N.of_nat (cpIndex c) < 2 ^ 32)%N ->
    exists i q d, api_get_closest_point h a pt = Ok (i, q, d) /\ N.to_nat i = cpIndex c /\ q = cpPoint c /\ d = cpDistance c.
Proof.
  intros Ep. unfold api_get_path_length, api_get_area, api_get_winding_number, api_get_extents, api_get_closest_point. rewrite Ep. cbn [bind].
  repeat (split; [reflexivity|]). intros c -> L. cbn [bind]. do 3 eexists. split; [reflexivity|]. unfold toU32. rewrite N.mod_small by auto. rewrite Nat2N.id. auto.
Qed.

(** which operation a mode number selects *)
Definition selected (combine_mode : Z) (m : combineMode) : Prop :=
  (combine_mode = 0 -> m = Union)%Z /\ (combine_mode = 1 -> m = Exclude)%Z /\ (combine_mode = 2 -> m = Intersect)%Z /\ (combine_mode = 3 -> m = XOR)%Z /\
  ((combine_mode < 0 \/ 3 < combine_mode)%Z -> m = Union).

Theorem C44_combine h a b pa pb mode m : getP h a = Ok pa -> getP h b = Ok pb -> selected mode m ->
  match combinePolylines (cdata pa) (cdata pb) m with
  | Ok r => exists h' l1 l2, api_combine_plines h a b mode = Ok (h', l1, l2) /\ l1 <> l2 /\ shows h' l1 (remaining r) /\ shows h' l2 (subtracted r) /\ extends h h'
  | UB => api_combine_plines h a b mode = UB
  | Fuel => api_combine_plines h a b mode = Fuel
  end.
Proof.
  intros Ea Eb (S0 & S1 & S2 & S3 & S4).
  assert (Em : modeOfInt mode = m).
  { unfold modeOfInt. destruct (Z.eqb_spec mode 0); [symmetry; auto|]. destruct (Z.eqb_spec mode 1); [symmetry; auto|]. destruct (Z.eqb_spec mode 2); [symmetry; auto|].
    destruct (Z.eqb_spec mode 3); [symmetry; auto|]. symmetry. apply S4. lia. }
  unfold api_combine_plines. rewrite Ea, Eb. cbn [bind]. rewrite Em. destruct (combinePolylines (cdata pa) (cdata pb) m) as [r| |]; cbn [bind]; try reflexivity.
  destruct (moveToList h (remaining r)) as [h1 as1] eqn:E1. destruct (moveToList h1 (subtracted r)) as [h2 as2] eqn:E2. apply move_spec in E1, E2. destruct E1 as (A1 & B1 & ->), E2 as (A2 & B2 & ->).
  unfold allocL. cbn [hLists hPlines]. do 3 eexists. split; [reflexivity|]. rewrite A2, A1, B2, B1. rewrite <- !app_assoc. split; [rewrite app_length; cbn; lia|]. split; [|split].
  - eapply (shows_new _ _ _ (hPlines h)); cbn [hPlines hLists]; [reflexivity|]. rewrite nth_error_app2, Nat.sub_diag by lia. reflexivity.
  - eapply (shows_new _ _ _ (hPlines h ++ map (fun p => Some (mkCP_ p (reserveCap 0 (size p)))) (remaining r)) []); cbn [hPlines hLists]; [now rewrite app_nil_r, <- app_assoc|]. rewrite nth_error_app2 by (rewrite app_length; lia).
    rewrite !app_length. cbn [length]. replace (length (hLists h) + 1 - length (hLists h)) with 1 by lia. reflexivity.
  - split; intros x y Hx; unfold getP, getL in *; cbn [hPlines hLists]; now apply get_app.
Qed.

(** ** C43 *)
(** *** The client's view: the polylines and lists it must delete *)
Record world := mkWorld { w_heap : heap; w_owned : list nat; w_lists : list nat }.
Definition start : world := mkWorld emptyHeap [] [].

Inductive apiCall :=
| ANew (data : option (list vertex)) (count : nat) (closed : bool)
| ADelete (a : nat)
| AUse (a : nat) (o : plineOp)
| AListDelete (l : nat)
| ARelease (l i : nat)
| AOffset (a : nat) (delta : T) (flags : Z)
| ACombine (a b : nat) (mode : Z).

(** handles the client may pass: its own polylines and those it gets from its lists *)
Definition usable (w : world) (a : nat) : Prop := In a (w_owned w) \/ exists l i, In l (w_lists w) /\ list_get (w_heap w) l i = Ok a.

(** the documented rules (cavaliercontours.h): delete what you own once; pass only live handles; list indexes below the count *)
Definition allowed (w : world) (c : apiCall) : Prop :=
  match c with
  | ANew _ _ _ => True
  | ADelete a => In a (w_owned w)
  | AUse a o => usable w a /\ (forall s n p, o = RemoveRange s n -> getP (w_heap w) a = Ok p -> inRange (length (vertexes (cdata p))) s n)
  | AListDelete l => In l (w_lists w)
  | ARelease l i => In l (w_lists w) /\ exists a, list_get (w_heap w) l i = Ok a
  | AOffset a _ _ => usable w a
  | ACombine a b _ => usable w a /\ usable w b
  end.

(** effect of a call, with the client's bookkeeping *)
Definition perform (w : world) (c : apiCall) : res world :=
  let h := w_heap w in
  match c with
  | ANew data n c => let '(h, a) := pline_new h data n c in Ok (mkWorld h (a :: w_owned w) (w_lists w))
  | ADelete a => let! h := pline_delete h (Some a) in Ok (mkWorld h (remove Nat.eq_dec a (w_owned w)) (w_lists w))
  | AUse a o => let! h := doOp h a o in Ok (mkWorld h (w_owned w) (w_lists w))
  | AListDelete l => let! h := list_delete h (Some l) in Ok (mkWorld h (w_owned w) (remove Nat.eq_dec l (w_lists w)))
  | ARelease l i => let! (h, a) := list_release h l i in Ok (mkWorld h (a :: w_owned w) (w_lists w))
  | AOffset a d f => let! (h, l) := api_parallel_offset h a d f in Ok (mkWorld h (w_owned w) (l :: w_lists w))
  | ACombine a b m => let! (h, l1, l2) := api_combine_plines h a b m in Ok (mkWorld h (w_owned w) (l1 :: l2 :: w_lists w))
  end.

(** a history of calls obeying the rules *)
Inductive session : world -> list apiCall -> world -> Prop :=
| ses_nil w : session w [] w
| ses_cons w c w1 cs w2 : allowed w c -> perform w c = Ok w1 -> session w1 cs w2 -> session w (c :: cs) w2.

(** the library algorithm behind a call does not fail *)
Definition algorithmOk (w : world) (c : apiCall) : Prop :=
  match c with
  | AOffset a d f => forall p, getP (w_heap w) a = Ok p -> exists rs, parallelOffset (cdata p) d (Z.odd f) = Ok rs
  | ACombine a b m => forall p q, getP (w_heap w) a = Ok p -> getP (w_heap w) b = Ok q -> exists r, combinePolylines (cdata p) (cdata q) (modeOfInt m) = Ok r
  | _ => True
  end.

(** *** Invariant *)
Definition flat (L : list (option (list nat))) : list nat := concat (map (fun o => match o with Some c => c | None => [] end) L).
Definition liveP (h : heap) (a : nat) : Prop := exists p, nth_error (hPlines h) a = Some (Some p).
Definition inv (w : world) : Prop :=
  NoDup (w_lists w) /\ (forall l, In l (w_lists w) <-> exists c, nth_error (hLists (w_heap w)) l = Some (Some c)) /\
  NoDup (w_owned w ++ flat (hLists (w_heap w))) /\ (forall a, In a (w_owned w ++ flat (hLists (w_heap w))) <-> liveP (w_heap w) a).

Lemma flat_app L1 L2 : flat (L1 ++ L2) = flat L1 ++ flat L2.
Proof. unfold flat. now rewrite map_app, concat_app. Qed.

Lemma flat_upd L l c x : nth_error L l = Some (Some c) -> exists rest, Permutation (flat L) (c ++ rest) /\ Permutation (flat (upd L l x)) (match x with Some c' => c' | None => [] end ++ rest).
Proof.
  intros H. apply nth_error_split in H. destruct H as (l1 & l2 & -> & <-). exists (flat l1 ++ flat l2). rewrite upd_app, !flat_app.
  assert (G : forall o, flat (o :: l2) = match o with Some c' => c' | None => [] end ++ flat l2) by reflexivity. rewrite !G.
  split; rewrite !app_assoc; apply Permutation_app_tail, Permutation_app_comm.
Qed.

Lemma usable_live w a : inv w -> usable w a -> liveP (w_heap w) a.
Proof.
  intros (N1 & HL & N2 & HP) [H|(l & i & Hl & E)]; apply HP, in_or_app; [now left|right]. unfold list_get in E. apply bind_inv in E. destruct E as (c & Ec & E).
  apply rgetI_inv in Ec. apply rget_inv in E. apply nth_error_In in E. destruct (flat_upd _ _ _ None Ec) as (rest & P & _). apply (Permutation_in _ (Permutation_sym P)). apply in_or_app. now left.
Qed.
Lemma live_get h a : liveP h a <-> exists p, getP h a = Ok p.
Proof. unfold liveP, getP. split; intros (p & H); exists p; now apply rgetI_inv. Qed.

Lemma op_ok h a o : (exists p, getP h a = Ok p /\ forall s n, o = RemoveRange s n -> inRange (length (vertexes (cdata p))) s n) -> exists h', doOp h a o = Ok h'.
Proof.
  intros (p & Ep & Hr). assert (K : forall q, exists h', setP h a q = Ok h').
  { intros q. unfold setP. rewrite Ep. cbn [bind]. unfold getP in Ep. apply rgetI_inv in Ep. rewrite rset_ok by (apply nth_error_Some; rewrite Ep; discriminate). cbn [bind]. eauto. }
  destruct o; cbn [doOp]; unfold pline_set_vertex_data, pline_add_vertex, pline_remove_range, pline_clear, pline_set_is_closed, pline_set_capacity; rewrite Ep; cbn [bind]; try apply K.
  specialize (Hr _ _ eq_refl). unfold inRange in Hr. destruct (N.leb_spec (start0 + count) (N.of_nat (length (vertexes (cdata p))))); [apply K|lia].
Qed.

Lemma op_live h a o h' : doOp h a o = Ok h' -> hLists h' = hLists h /\ forall b, liveP h' b <-> liveP h b.
Proof.
  intros E. split.
  - destruct o; cbn [doOp] in E; unfold pline_set_vertex_data, pline_add_vertex, pline_remove_range, pline_clear, pline_set_is_closed, pline_set_capacity in E; apply bind_inv in E; destruct E as (p & Ep & E);
      try (destruct (_ <=? _)%N in E; [|discriminate]); unfold setP in E; apply bind_inv in E; destruct E as (? & _ & E); apply bind_inv in E; destruct E as (? & _ & E); injection E as <-; reflexivity.
  - intros b. destruct (op_capacity _ _ _ _ E) as (p & q & E1 & E2 & Ef & _). rewrite !live_get. destruct (Nat.eq_dec b a) as [->|Hne]; [split; eauto|]. rewrite (Ef b Hne). reflexivity.
Qed.

Lemma free_ok h a : liveP h a -> exists h', freeP h a = Ok h' /\ hLists h' = hLists h /\ forall b, liveP h' b <-> liveP h b /\ b <> a.
Proof.
  intros H. apply live_get in H. destruct H as (p & Ep). unfold freeP. rewrite Ep. cbn [bind]. unfold getP in Ep. apply rgetI_inv in Ep.
  assert (L : a < length (hPlines h)) by (apply nth_error_Some; rewrite Ep; discriminate). rewrite rset_ok by auto. cbn [bind]. eexists. split; [reflexivity|]. split; [reflexivity|].
  intros b. unfold liveP. cbn [hPlines]. destruct (Nat.eq_dec a b) as [->|Hne].
  - rewrite nth_error_upd_eq by auto. split; [intros (? & ?); discriminate|tauto].
  - rewrite nth_error_upd_ne by auto. split; [auto|tauto].
Qed.

Lemma free_all c : forall h, NoDup c -> (forall a, In a c -> liveP h a) -> exists h', mfold freeP c h = Ok h' /\ hLists h' = hLists h /\ (forall b, liveP h' b <-> liveP h b /\ ~ In b c) /\ (forall b, ~ In b c -> getP h' b = getP h b).
Proof.
  induction c as [|a c IH]; intros h N H; cbn [mfold].
  - exists h. split; [reflexivity|]. split; [reflexivity|]. split; [|reflexivity]. intros b. cbn. tauto.
  - inversion N as [|? ? Ha N']; subst. destruct (free_ok h a (H a (or_introl eq_refl))) as (h1 & E1 & L1 & V1). rewrite E1. cbn [bind].
    destruct (IH h1 N') as (h2 & E2 & L2 & V2 & G2). { intros b Hb. apply V1. split; [apply H; now right|]. intros ->. contradiction. }
    exists h2. split; [exact E2|]. split; [congruence|]. split.
    + intros b. rewrite V2, V1. cbn [In]. split; [intros [[A B] C]; split; [auto|intros [D|D]; [congruence|contradiction]]|intros [A B]; split; [split; [auto|intros ->; apply B; now left]|intros D; apply B; now right]].
    + intros b Hb. rewrite G2 by (intros D; apply Hb; now right). unfold freeP in E1. apply bind_inv in E1. destruct E1 as (p & _ & E1). apply bind_inv in E1. destruct E1 as (ps & Es & E1). injection E1 as <-.
      apply rset_inv in Es. destruct Es as [_ ->]. unfold getP, rgetI. cbn [hPlines]. rewrite nth_error_upd_ne; [reflexivity|]. intros ->. apply Hb. now left.
Qed.

Lemma in_remove x y l : In y (remove Nat.eq_dec x l) <-> In y l /\ y <> x.
Proof. split; [apply in_remove|]. intros [A B]. now apply in_in_remove. Qed.
Lemma nodup_remove x l : NoDup l -> NoDup (remove Nat.eq_dec x l).
Proof. induction 1 as [|y l Hy N IH]; cbn [remove]; [constructor|]. destruct (Nat.eq_dec x y); [auto|]. constructor; [|auto]. rewrite in_remove. tauto. Qed.

Lemma nodup_app {A} (l1 l2 : list A) : NoDup (l1 ++ l2) <-> NoDup l1 /\ NoDup l2 /\ (forall x, In x l1 -> ~ In x l2).
Proof.
  induction l1 as [|a l1 IH]; cbn [app].
  - split; [intros H; split; [constructor|split; [auto|intros x []]]|tauto].
  - rewrite !NoDup_cons_iff, IH, in_app_iff. cbn [In]. split.
    + intros (Ha & H1 & H2 & H3). split; [tauto|]. split; [auto|]. intros x [->|Hx]; auto.
    + intros ((Ha & H1) & H2 & H3). split; [intros [H|H]; [auto|apply (H3 a); auto]|]. split; [auto|]. split; [auto|]. intros x Hx. apply H3. now right.
Qed.

Lemma live_alloc h p b : liveP (mkHeap (hPlines h ++ [Some p]) (hLists h)) b <-> liveP h b \/ b = length (hPlines h).
Proof.
  unfold liveP. cbn [hPlines]. destruct (Nat.lt_ge_cases b (length (hPlines h))) as [L|L].
  - rewrite nth_error_app1 by auto. split; [auto|intros [H|H]; [auto|lia]].
  - rewrite nth_error_app2 by auto. split.
    + intros (q & Hq). right. destruct (b - length (hPlines h)) as [|k] eqn:Eb; [lia|destruct k; discriminate].
    + intros [(q & H)| ->]; [exfalso; assert (b < length (hPlines h)) by (apply nth_error_Some; rewrite H; discriminate); lia|]. rewrite Nat.sub_diag. cbn. eauto.
Qed.

Lemma live_lt h b : liveP h b -> b < length (hPlines h).
Proof. intros (p & H). apply nth_error_Some. rewrite H. discriminate. Qed.

Lemma live_move h h' ps as_ : moveToList h ps = (h', as_) -> hLists h' = hLists h /\ NoDup as_ /\ (forall a, In a as_ -> length (hPlines h) <= a) /\ forall b, liveP h' b <-> liveP h b \/ In b as_.
Proof.
  intros E. apply move_spec in E. destruct E as (A & B & ->). split; [exact B|]. split; [apply seq_NoDup|]. split; [intros a Ha; apply in_seq in Ha; lia|]. intros b. unfold liveP. rewrite A, in_seq.
  destruct (Nat.lt_ge_cases b (length (hPlines h))) as [L|L].
  - rewrite nth_error_app1 by auto. split; [auto|intros [H|H]; [auto|lia]].
  - rewrite nth_error_app2 by auto. split.
    + intros (q & Hq). right. split; [lia|]. assert (b - length (hPlines h) < length (map (fun p => Some (mkCP_ p (reserveCap 0 (size p)))) ps)) by (apply nth_error_Some; rewrite Hq; discriminate). rewrite map_length in *. lia.
    + intros [(q & H)|[_ H]]; [exfalso; assert (b < length (hPlines h)) by (apply nth_error_Some; rewrite H; discriminate); lia|].
      rewrite nth_error_map. destruct (nth_error ps (b - length (hPlines h))) as [p|] eqn:Ep; [cbn; eauto|]. apply nth_error_None in Ep. lia.
Qed.

(** a new list of new polylines keeps the invariant *)
Lemma inv_newlist h own ls h1 ps as_ : inv (mkWorld h own ls) -> moveToList h ps = (h1, as_) ->
  inv (mkWorld (mkHeap (hPlines h1) (hLists h1 ++ [Some as_])) own (length (hLists h1) :: ls)).
Proof.
  intros (N1 & HL & N2 & HP) E. apply live_move in E. destruct E as (EL & Na & Hge & HV). cbn [w_heap w_owned w_lists] in *. unfold inv. cbn [w_heap w_owned w_lists hLists]. rewrite EL.
  assert (Hll : forall l c, nth_error (hLists h) l = Some (Some c) -> l < length (hLists h)) by (intros l c H; apply nth_error_Some; rewrite H; discriminate).
  split; [|split; [|split]].
  - constructor; [|auto]. intros H. apply HL in H. destruct H as (c & H). apply Hll in H. lia.
  - intros l. cbn [In]. destruct (Nat.lt_ge_cases l (length (hLists h))) as [L|L].
    + rewrite nth_error_app1 by auto. rewrite <- HL. split; [intros [H|H]; [lia|auto]|auto].
    + rewrite nth_error_app2 by auto. split.
      * intros [<-|H]; [rewrite Nat.sub_diag; cbn; eauto|]. apply HL in H. destruct H as (c & H). apply Hll in H. lia.
      * intros (c & H). left. destruct (l - length (hLists h)) as [|k] eqn:El; [lia|destruct k; discriminate].
  - rewrite flat_app. unfold flat at 2. cbn [map concat]. rewrite app_nil_r, app_assoc. apply nodup_app. split; [auto|]. split; [auto|].
    intros x Hx Hx'. apply HP, live_lt in Hx. apply Hge in Hx'. lia.
  - intros a. rewrite flat_app. unfold flat at 2. cbn [map concat]. rewrite app_nil_r, app_assoc, in_app_iff, HP. specialize (HV a). unfold liveP in *. cbn [hPlines]. symmetry. exact HV.
Qed.

Lemma perform_ok w c : inv w -> allowed w c -> algorithmOk w c -> exists w', perform w c = Ok w'.
Proof.
  intros I A Al. destruct c as [data n c|a|a o|l|l i|a d f|a b m]; cbn [perform allowed algorithmOk] in *.
  - destruct (pline_new _ _ _ _). eauto.
  - destruct (free_ok (w_heap w) a) as (h' & E & _); [apply I, in_or_app; now left|]. cbn [pline_delete]. rewrite E. cbn [bind]. eauto.
  - destruct A as [U R]. apply usable_live in U; [|auto]. apply live_get in U. destruct U as (p & Ep). destruct (op_ok (w_heap w) a o) as (h' & ->); [exists p; split; [auto|]; intros; eapply R; eauto|]. cbn [bind]. eauto.
  - destruct I as (N1 & HL & N2 & HP). apply HL in A. destruct A as (c & Ec). destruct (flat_upd _ _ _ None Ec) as (rest & P & _). unfold list_delete.
    assert (Eg : getL (w_heap w) l = Ok c) by (now apply rgetI_inv). rewrite Eg. cbn [bind].
    apply nodup_app in N2. destruct N2 as (_ & N2 & _). rewrite P in N2. apply nodup_app in N2. destruct N2 as (Nc & _ & _).
    destruct (free_all c (w_heap w) Nc) as (h' & E & L & _). { intros a Ha. apply HP, in_or_app. right. apply (Permutation_in _ (Permutation_sym P)), in_or_app. now left. }
    rewrite E. cbn [bind]. rewrite L. rewrite rset_ok by (apply nth_error_Some; rewrite Ec; discriminate). cbn [bind]. eauto.
  - destruct A as [Hl (a & Ea)]. unfold list_get in Ea. apply bind_inv in Ea. destruct Ea as (c & Ec & Ea). unfold list_release. rewrite Ec. cbn [bind]. rewrite Ea. cbn [bind]. unfold setL. rewrite Ec. cbn [bind].
    unfold getL in Ec. apply rgetI_inv in Ec. rewrite rset_ok by (apply nth_error_Some; rewrite Ec; discriminate). cbn [bind]. eauto.
  - apply usable_live in A; [|auto]. apply live_get in A. destruct A as (p & Ep). destruct (Al p Ep) as (rs & Er). pose proof (C44_offset (w_heap w) a p d f Ep) as H. rewrite Er in H. destruct H as (h' & l & -> & _). cbn [bind]. eauto.
  - destruct A as [A B]. apply usable_live in A, B; auto. apply live_get in A, B. destruct A as (p & Ep), B as (q & Eq). destruct (Al p q Ep Eq) as (r & Er). unfold api_combine_plines. rewrite Ep, Eq. cbn [bind]. rewrite Er. cbn [bind].
    destruct (moveToList _ _) as [h1 as1]. destruct (moveToList _ _) as [h2 as2]. unfold allocL. cbn [bind]. eauto.
Qed.

Lemma perform_inv w c w' : inv w -> allowed w c -> perform w c = Ok w' -> inv w'.
Proof.
  intros I A E. pose proof I as (N1 & HL & N2 & HP). destruct c as [data n c|a|a o|l|l i|a d f|a b m]; cbn [perform allowed] in *.
  - unfold pline_new, allocP in E. injection E as <-. unfold inv. cbn [w_heap w_owned w_lists hLists]. split; [auto|]. split; [auto|]. split.
    + cbn [app]. constructor; [|auto]. intros H. apply HP, live_lt in H. lia.
    + intros a. cbn [app In]. rewrite HP, live_alloc. intuition.
  - apply bind_inv in E. destruct E as (h' & E & E'). injection E' as <-. cbn [pline_delete] in E. destruct (free_ok (w_heap w) a) as (h2 & E2 & L2 & V2); [apply HP, in_or_app; now left|].
    assert (h2 = h') by congruence. subst h2. unfold inv. cbn [w_heap w_owned w_lists]. rewrite L2. split; [auto|]. split; [auto|]. apply nodup_app in N2. destruct N2 as (Na & Nb & Nc). split.
    + apply nodup_app. split; [now apply nodup_remove|]. split; [auto|]. intros x Hx. apply in_remove in Hx. apply Nc. tauto.
    + intros x. rewrite V2, <- HP, !in_app_iff, in_remove. split; [|intros [[H|H] Hne]; auto]. intros [[H Hne]|H]; [auto|]. split; [auto|]. intros ->. apply (Nc a); auto.
  - apply bind_inv in E. destruct E as (h' & E & E'). injection E' as <-. apply op_live in E. destruct E as [EL EV]. unfold inv. cbn [w_heap w_owned w_lists]. rewrite EL. split; [auto|]. split; [auto|]. split; [auto|].
    intros x. now rewrite EV.
  - apply bind_inv in E. destruct E as (h' & E & E'). injection E' as <-. apply HL in A. destruct A as (c & Ec). destruct (flat_upd _ _ _ None Ec) as (rest & P & P'). cbn [app] in P'.
    assert (Eg : getL (w_heap w) l = Ok c) by (now apply rgetI_inv). unfold list_delete in E. rewrite Eg in E. cbn [bind] in E.
    assert (Np : NoDup (w_owned w ++ c ++ rest)) by (rewrite <- P; exact N2).
    apply nodup_app in Np. destruct Np as (No & Nc & Nd). apply nodup_app in Nc. destruct Nc as (Nc & Nr & Ncr).
    destruct (free_all c (w_heap w) Nc) as (h2 & E2 & L2 & V2 & _). { intros a Ha. apply HP, in_or_app. right. apply (Permutation_in _ (Permutation_sym P)), in_or_app. now left. }
    rewrite E2 in E. cbn [bind] in E. rewrite L2 in E. assert (Ll : l < length (hLists (w_heap w))) by (apply nth_error_Some; rewrite Ec; discriminate). rewrite rset_ok in E by auto. cbn [bind] in E. injection E as <-.
    unfold inv. cbn [w_heap w_owned w_lists hLists]. split; [now apply nodup_remove|]. split; [|split].
    + intros l'. rewrite in_remove, HL. destruct (Nat.eq_dec l l') as [->|Hne]; [rewrite nth_error_upd_eq by auto; split; [tauto|intros (? & ?); discriminate]|]. rewrite nth_error_upd_ne by auto. split; [tauto|auto].
    + rewrite P'. apply nodup_app. split; [auto|]. split; [auto|]. intros x Hx Hr. apply (Nd x Hx), in_or_app. now right.
    + intros a. unfold liveP. cbn [hPlines]. change (In a (w_owned w ++ flat (upd (hLists (w_heap w)) l None)) <-> liveP h2 a). rewrite V2, <- HP, !in_app_iff. rewrite P', P, in_app_iff. split.
      * intros [H|H]; [split; [auto|]; intros Hc; apply (Nd a H), in_or_app; now left|]. split; [auto|]. intros Hc. now apply (Ncr a).
      * intros [[H|[H|H]] Hn]; [auto|contradiction|auto].
  - destruct A as [Hl (a & Ea)]. apply bind_inv in E. destruct E as ([h' a'] & E & E'). injection E' as <-. unfold list_get in Ea. apply bind_inv in Ea. destruct Ea as (c & Ec & Ea). unfold list_release in E. rewrite Ec in E. cbn [bind] in E. rewrite Ea in E. cbn [bind] in E.
    unfold setL in E. rewrite Ec in E. cbn [bind] in E. unfold getL in Ec. apply rgetI_inv in Ec. assert (Ll : l < length (hLists (w_heap w))) by (apply nth_error_Some; rewrite Ec; discriminate). rewrite rset_ok in E by auto. cbn [bind] in E. injection E as <- <-.
    destruct (flat_upd _ _ _ (Some (firstn i c ++ skipn (S i) c)) Ec) as (rest & P & P'). unfold inv. cbn [w_heap w_owned w_lists hLists].
    apply rget_inv in Ea. assert (Pc : Permutation c (a :: firstn i c ++ skipn (S i) c)).
    { apply nth_error_split in Ea. destruct Ea as (l1 & l2 & -> & <-). rewrite firstn_app, Nat.sub_diag, firstn_all. cbn [firstn]. rewrite app_nil_r. 
      replace (skipn (S (length l1)) (l1 ++ a :: l2)) with l2. 2:{ rewrite skipn_app. rewrite skipn_all2 by lia. replace (S (length l1) - length l1) with 1 by lia. reflexivity. } symmetry. apply Permutation_middle. }
    assert (PP : Permutation (w_owned w ++ flat (hLists (w_heap w))) (a :: w_owned w ++ flat (upd (hLists (w_heap w)) l (Some (firstn i c ++ skipn (S i) c))))).
    { rewrite P, P'. rewrite Pc at 1. cbn [app]. rewrite <- Permutation_middle. reflexivity. }
    split; [auto|]. split; [|split].
    + intros l'. rewrite HL. destruct (Nat.eq_dec l l') as [->|Hne]; [rewrite nth_error_upd_eq by auto; rewrite Ec; split; eauto|]. now rewrite nth_error_upd_ne by auto.
    + cbn [app]. now rewrite <- PP.
    + intros x. cbn [app]. rewrite <- PP. rewrite HP. unfold liveP. cbn [hPlines]. reflexivity.
  - apply bind_inv in E. destruct E as ([h' l] & E & E'). injection E' as <-. unfold api_parallel_offset in E. apply bind_inv in E. destruct E as (p & _ & E). apply bind_inv in E. destruct E as (rs & _ & E).
    destruct (moveToList (w_heap w) rs) as [h1 as_] eqn:Em. unfold allocL in E. injection E as <- <-. eapply inv_newlist; [|exact Em]. destruct w; exact I.
  - apply bind_inv in E. destruct E as ([[h' l1] l2] & E & E'). injection E' as <-. unfold api_combine_plines in E. apply bind_inv in E. destruct E as (p & _ & E). apply bind_inv in E. destruct E as (q & _ & E). apply bind_inv in E. destruct E as (r & _ & E).
    destruct (moveToList (w_heap w) (remaining r)) as [h1 as1] eqn:E1. destruct (moveToList h1 (subtracted r)) as [h2 as2] eqn:E2. unfold allocL in E. cbn [hPlines hLists] in E. injection E as <- <- <-.
    assert (I1 : inv (mkWorld (w_heap w) (w_owned w) (w_lists w))) by (destruct w; exact I).
    pose proof (inv_newlist _ _ _ _ _ _ I1 E1) as I2.
    assert (E2' : moveToList (mkHeap (hPlines h1) (hLists h1 ++ [Some as1])) (subtracted r) = (mkHeap (hPlines h2) (hLists h2 ++ [Some as1]), as2)).
    { clear -E2. revert h1 h2 as2 E2. generalize (subtracted r) as ps. induction ps as [|p ps IH]; intros h1 h2 as2 E; cbn [moveToList] in *; [injection E as <- <-; reflexivity|].
      unfold allocP in *. destruct (moveToList (mkHeap (hPlines h1 ++ _) (hLists h1)) ps) as [h3 as3] eqn:E3. injection E as <- <-. apply IH in E3. cbn [hPlines hLists] in *. rewrite E3. reflexivity. }
    pose proof (inv_newlist _ _ _ _ _ _ I2 E2') as I3. cbn [hPlines hLists] in I3. apply move_spec in E2. destruct E2 as (_ & EL2 & _).
    destruct I3 as (M1 & ML & M2 & MP). cbn [w_heap w_owned w_lists hLists] in *. unfold inv. cbn [w_heap w_owned w_lists hLists]. rewrite EL2 in *.
    split; [|split; [|split; [exact M2|exact MP]]].
    + inversion M1 as [|? ? Q1 Q2]; subst. inversion Q2 as [|? ? Q3 Q4]; subst. constructor; [|constructor; [|auto]]; cbn [In] in *; intuition congruence.
    + intros l'. rewrite <- ML. cbn [In]. intuition.
Qed.

Lemma session_inv w cs w' : session w cs w' -> inv w -> inv w'.
Proof. induction 1; intros I; auto. apply IHsession. eapply perform_inv; eauto. Qed.

Lemma inv_start : inv start.
Proof.
  unfold inv, start. cbn. split; [constructor|]. split; [intros l; split; [intros []|intros (c & H); destruct l; discriminate]|]. split; [constructor|].
  intros a. split; [intros []|]. intros (p & H). destruct a; discriminate.
Qed.

(** No call of a client following the rules touches freed memory, frees twice or goes out of range: it succeeds whenever the library algorithm behind it does. *)
Theorem C43_safe calls w c : session start calls w -> allowed w c -> algorithmOk w c -> exists w', perform w c = Ok w'.
Proof. intros S. apply perform_ok. eapply session_inv; [exact S|exact inv_start]. Qed.

(** A client that has deleted everything it owned leaves nothing behind. *)
Theorem C43_no_leak calls w : session start calls w -> w_owned w = [] -> w_lists w = [] ->
  List.Forall (fun o => o = None) (hPlines (w_heap w)) /\ List.Forall (fun o => o = None) (hLists (w_heap w)).
Proof.
  intros S Ho Hl. destruct (session_inv _ _ _ S inv_start) as (N1 & HL & N2 & HP). rewrite Ho in HP. rewrite Hl in HL.
  assert (L : forall o, In o (hLists (w_heap w)) -> o = None).
  { intros [c|] Hin; [|reflexivity]. apply In_nth_error in Hin. destruct Hin as (l & E). assert (In l []) by (apply HL; eauto). contradiction. }
  split; apply List.Forall_forall; [|exact L]. intros [p|] Hin; [|reflexivity]. exfalso. apply In_nth_error in Hin. destruct Hin as (a & E).
  assert (H : In a ([] ++ flat (hLists (w_heap w)))) by (apply HP; exists p; exact E). cbn [app] in H. unfold flat in H. apply in_concat in H. destruct H as (c & Hc & Ha). apply in_map_iff in Hc.
  destruct Hc as (o & <- & Ho'). rewrite (L o Ho') in Ha. destruct Ha.
Qed.

(** A released polyline survives the deletion of its list, with its contents. *)
Theorem C43_release calls w l i h1 a : session start calls w -> In l (w_lists w) -> list_release (w_heap w) l i = Ok (h1, a) ->
  exists h2 p, list_delete h1 (Some l) = Ok h2 /\ getP (w_heap w) a = Ok p /\ getP h2 a = Ok p.
Proof.
  intros S Hl E. pose proof (session_inv _ _ _ S inv_start) as I.
  assert (Ea : list_get (w_heap w) l i = Ok a).
  { unfold list_release in E. apply bind_inv in E. destruct E as (c & Ec & E). apply bind_inv in E. destruct E as (t & Et & E). apply bind_inv in E. destruct E as (h0 & _ & E). injection E as <- <-. unfold list_get. rewrite Ec. exact Et. }
  assert (U : usable w a) by (right; eauto). apply usable_live in U; [|auto]. apply live_get in U. destruct U as (p & Ep).
  assert (A1 : allowed w (ARelease l i)) by (split; eauto).
  assert (P1 : perform w (ARelease l i) = Ok (mkWorld h1 (a :: w_owned w) (w_lists w))) by (cbn [perform]; rewrite E; reflexivity).
  pose proof (perform_inv _ _ _ I A1 P1) as I1. destruct (perform_ok _ (AListDelete l) I1 Hl Logic.I) as (w2 & P2).
  cbn [perform w_heap] in P2. apply bind_inv in P2. destruct P2 as (h2 & E2 & P2). exists h2, p. split; [exact E2|]. split; [exact Ep|].
  assert (G1 : getP h1 a = Ok p).
  { unfold list_release in E. apply bind_inv in E. destruct E as (c & Ec & E). apply bind_inv in E. destruct E as (t & Et & E). apply bind_inv in E. destruct E as (h0 & Es & E). injection E as <- <-.
    unfold setL in Es. apply bind_inv in Es. destruct Es as (? & _ & Es). apply bind_inv in Es. destruct Es as (ls & _ & Es). injection Es as <-. exact Ep. }
  destruct I1 as (N1 & HL & N2 & HP). cbn [w_heap w_owned w_lists] in *. unfold list_delete in E2. apply bind_inv in E2. destruct E2 as (c & Ec & E2). pose proof Ec as Ec'. apply rgetI_inv in Ec'.
  destruct (flat_upd _ _ _ None Ec') as (rest & P & _). assert (Np : NoDup ((a :: w_owned w) ++ c ++ rest)) by (rewrite <- P; exact N2). apply nodup_app in Np. destruct Np as (_ & Nc & Nd). apply nodup_app in Nc.
  destruct (free_all c h1 (proj1 Nc)) as (h3 & E3 & L3 & _ & G3). { intros b Hb. apply HP, in_or_app. right. apply (Permutation_in _ (Permutation_sym P)), in_or_app. now left. }
  rewrite E3 in E2. cbn [bind] in E2. apply bind_inv in E2. destruct E2 as (ls & _ & E2). injection E2 as <-. rewrite <- G1. unfold getP. cbn [hPlines]. change (getP h3 a = getP h1 a). apply G3.
  intros Hc. apply (Nd a (or_introl eq_refl)), in_or_app. now left.
Qed.

(** The rules are needed: deleting twice, and deleting a polyline still owned by a list and then the list, are both undefined. *)
(** deleting null does nothing *)
Theorem C43_delete_null h : pline_delete h None = Ok h /\ list_delete h None = Ok h.
Proof. split; reflexivity. Qed.

Theorem C43_double_delete h a h' : pline_delete h (Some a) = Ok h' -> pline_delete h' (Some a) = UB.
Proof.
  cbn [pline_delete]. unfold freeP. intros E. apply bind_inv in E. destruct E as (p & Ep & E). apply bind_inv in E. destruct E as (ps & Es & E). injection E as <-. apply rset_inv in Es. destruct Es as [L ->].
  unfold getP, rgetI. cbn [hPlines]. rewrite nth_error_upd_eq by auto. reflexivity.
Qed.
Theorem C43_delete_borrowed calls w l i a h' : session start calls w -> In l (w_lists w) -> list_get (w_heap w) l i = Ok a -> pline_delete (w_heap w) (Some a) = Ok h' -> list_delete h' (Some l) = UB.
Proof.
  intros S Hl Ea E. pose proof (session_inv _ _ _ S inv_start) as (N1 & HL & N2 & HP). unfold list_get in Ea. apply bind_inv in Ea. destruct Ea as (c & Ec & Ea). apply rget_inv in Ea. apply nth_error_In in Ea.
  pose proof Ec as Ec'. apply rgetI_inv in Ec'. destruct (flat_upd _ _ _ None Ec') as (rest & P & _). apply nodup_app in N2. destruct N2 as (_ & N2 & _). rewrite P in N2. apply nodup_app in N2. destruct N2 as (Nc & _).
  assert (Hc : forall x, In x c -> liveP (w_heap w) x). { intros x Hx. apply HP, in_or_app. right. apply (Permutation_in _ (Permutation_sym P)), in_or_app. now left. }
  cbn [pline_delete] in E. destruct (free_ok _ a (Hc a Ea)) as (h2 & E2 & L2 & V2). assert (h2 = h') by congruence. subst h2.
  unfold list_delete. unfold getL. rewrite L2. unfold getL in Ec. rewrite Ec. cbn [bind].
  assert (G : forall c h, NoDup c -> In a c -> ~ liveP h a -> (forall x, In x c -> x <> a -> liveP h x) -> mfold freeP c h = UB).
  { clear. induction c as [|y c IH]; intros h N Hin Hd Hl; [destruct Hin|]. cbn [mfold]. inversion N as [|? ? Hy N']; subst. destruct (Nat.eq_dec y a) as [->|Hne].
    - assert (E : freeP h a = UB). { unfold freeP, getP, rgetI. destruct (nth_error (hPlines h) a) as [[p|]|] eqn:En; try reflexivity. elim Hd. exists p. exact En. } now rewrite E.
    - destruct Hin as [->|Hin]; [contradiction|]. destruct (free_ok h y (Hl y (or_introl eq_refl) Hne)) as (h1 & -> & _ & V). cbn [bind]. apply IH; auto.
      + intros Hv. apply V in Hv. tauto.
      + intros x Hx Hxa. apply V. split; [apply Hl; auto; now right|]. intros ->. contradiction. }
  rewrite (G c h' Nc Ea); [reflexivity|intros Hv; apply V2 in Hv; tauto|]. intros x Hx Hxa. apply V2. auto.
Qed.

(** ** Non-vacuity *)
(** a history using every call *)
Example C42_history_case v1 v2 v3 : specRun []
  [CNew (Some [v1; v2]) 2 true; CNew None 5 false; COp 1 (AddV v3); COp 0 (AddV v3); COp 0 (RemoveRange 1 1); COp 0 (SetClosed false); COp 0 (SetCapacity 9); CDelete 1; COp 0 (SetData [v2; v1; v3]); COp 0 (RemoveRange 0 2)]
  [Some (false, [v3]); None].
Proof.
  eapply sr_cons; [apply (s_new [] [v1; v2])|]. eapply sr_cons; [apply s_new_null|]. eapply sr_cons; [apply (s_op [_] _ []); constructor|]. eapply sr_cons; [apply (s_op [] _ [_]); constructor|].
  eapply sr_cons; [apply (s_op [] _ [_]); apply (e_remove true [v1] [v2] [v3])|]. eapply sr_cons; [apply (s_op [] _ [_]); constructor|]. eapply sr_cons; [apply (s_op [] _ [_]); constructor|].
  eapply sr_cons; [apply (s_delete [_] _ [])|]. eapply sr_cons; [apply (s_op [] _ [_]); constructor|]. eapply sr_cons; [apply (s_op [] _ [_]); apply (e_remove false [] [v2; v1] [v3])|]. apply sr_nil.
Qed.

(** a session: create a polyline and offset it; then releasing the first result, deleting the list and deleting the polyline are all allowed *)
Example C43_session_case vs d rs p : parallelOffset (mkPline true vs) d false = Ok (p :: rs) ->
  exists w, session start [ANew (Some vs) (length vs) true; AOffset 0 d 0] w /\ allowed w (ADelete 0) /\ allowed w (AListDelete 0) /\ allowed w (ARelease 0 0) /\ allowed w (AUse 1 Clear).
Proof.
  intros E. set (w1 := mkWorld (mkHeap [Some (mkCP_ (mkPline true vs) (reserveCap 0 (length vs)))] []) [0] []).
  assert (E1 : perform start (ANew (Some vs) (length vs) true) = Ok w1).
  { cbn [perform start w_heap w_owned w_lists]. unfold pline_new, allocP, copyToPline, setClosed. cbn [cdata ccap emptyPline isClosed vertexes hPlines hLists emptyHeap app length]. rewrite firstn_all. reflexivity. }
  assert (Eg : getP (w_heap w1) 0 = Ok (mkCP_ (mkPline true vs) (reserveCap 0 (length vs)))) by reflexivity.
  pose proof (C44_offset (w_heap w1) 0 _ d 0 Eg) as H. cbn [cdata] in H. change (Z.odd 0) with false in H. rewrite E in H. destruct H as (h' & l & Eo & [Sc Sg] & Ex).
  assert (El : l = 0). { unfold api_parallel_offset in Eo. apply bind_inv in Eo. destruct Eo as (? & _ & Eo). apply bind_inv in Eo. destruct Eo as (? & _ & Eo). destruct (moveToList _ _) as [h1 as_] eqn:Em. apply move_spec in Em. destruct Em as (_ & EL & _).
    unfold allocL in Eo. injection Eo as <- <-. rewrite EL. reflexivity. } subst l.
  exists (mkWorld h' [0] [0]). split; [|split; [|split; [|split]]].
  - eapply ses_cons; [exact I|exact E1|]. eapply ses_cons; [left; left; reflexivity|cbn [perform]; rewrite Eo; reflexivity|apply ses_nil].
  - now left.
  - now left.
  - split; [now left|]. destruct (Sg 0 p eq_refl) as (a & c & G & _). eauto.
  - split; [|discriminate]. right. exists 0, 0. split; [now left|]. unfold api_parallel_offset in Eo. apply bind_inv in Eo. destruct Eo as (x & Ex0 & Eo). rewrite Eg in Ex0. injection Ex0 as <-. cbn [cdata] in Eo.
    change (negb (Z.land 0 1 =? 0)%Z) with false in Eo. rewrite E in Eo. cbn [bind] in Eo. destruct (moveToList _ _) as [h1 as_] eqn:Em. apply move_spec in Em. destruct Em as (_ & EL & ->). unfold allocL in Eo. injection Eo as <- _. rewrite EL. reflexivity.
Qed.
End CApiProps.

(** doubling growth satisfies the law *)
#[local] Instance Doubling : VecPolicy := {| vec_grow := fun cap n => Nat.max n (2 * cap) |}.
#[local] Instance DoublingLaw : VecLaw Doubling.
Proof. intros cap n _. cbn [vec_grow Doubling]. lia. Qed.
