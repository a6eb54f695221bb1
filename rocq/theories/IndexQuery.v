(** * Queries on a finished index (proofs for C01-C04). *)
From Coq Require Import ZArith NArith List Bool Arith Lia FinFun Permutation.
From Verif Require Import Base Num SpatialIndex IndexSort Float32 IndexTree.
Import ListNotations.

(** Calling a visitor on a list of values, in order, until it returns false.
    Result: (never stopped, final state). *)
Fixpoint runVisitor {St A} (visitor : St -> A -> bool * St) (st : St) (l : list A) : bool * St :=
  match l with
  | [] => (true, st)
  | a :: t =>
      let '(go, st') := visitor st a in
      if go then runVisitor visitor st' t else (false, st')
  end.

Lemma runVisitor_app {St A} (v : St -> A -> bool * St) l1 l2 st :
  runVisitor v st (l1 ++ l2) =
  (let '(go, st') := runVisitor v st l1 in if go then runVisitor v st' l2 else (false, st')).
Proof.
  revert st; induction l1 as [|a l1 IH]; intros st; simpl; auto.
  destruct (v st a) as [[] st']; auto.
Qed.

Section Query.
Context {O : OrdOps}.
Context (ok : X -> Prop) {OL : OrdLaws ok}.

Definition okBox (b : box) : Prop := ok (bMinX b) /\ ok (bMinY b) /\ ok (bMaxX b) /\ ok (bMaxY b).

(** [nb] encloses [b] *)
Definition encloses (nb b : box) : Prop :=
  xltb (bMinX b) (bMinX nb) = false /\ xltb (bMinY b) (bMinY nb) = false /\
  xltb (bMaxX nb) (bMaxX b) = false /\ xltb (bMaxY nb) (bMaxY b) = false.

Lemma encloses_refl b : okBox b -> encloses b b.
Proof. intros (H1 & H2 & H3 & H4). repeat split; now apply (ol_irrefl (ok := ok)). Qed.

Lemma encloses_trans a b c : okBox a -> okBox b -> okBox c ->
  encloses a b -> encloses b c -> encloses a c.
Proof.
  intros (? & ? & ? & ?) (? & ? & ? & ?) (? & ? & ? & ?) (A1 & A2 & A3 & A4) (B1 & B2 & B3 & B4).
  repeat split.
  - now apply (ol_ge_trans (ok := ok) _ (bMinX b)).
  - now apply (ol_ge_trans (ok := ok) _ (bMinY b)).
  - now apply (ol_ge_trans (ok := ok) _ (bMaxX b)).
  - now apply (ol_ge_trans (ok := ok) _ (bMaxY b)).
Qed.

Lemma ok_empty : okBox emptyBox.
Proof. repeat split; simpl; apply ol_inf || apply ol_ninf. Qed.

Lemma bu_ok a b : okBox a -> okBox b -> okBox (bu a b).
Proof.
  intros (? & ? & ? & ?) (? & ? & ? & ?). unfold bu, okBox. simpl.
  repeat split; match goal with |- ok (if ?c then _ else _) => destruct c end; auto.
Qed.

Lemma bu_encl_l a b : okBox a -> okBox b -> encloses (bu a b) a.
Proof.
  intros (? & ? & ? & ?) (? & ? & ? & ?). unfold bu, encloses. simpl.
  repeat split; match goal with |- context [if ?c then _ else _] => destruct c eqn:? end;
  first [now apply (ol_irrefl (ok := ok)) | now apply (ol_asym (ok := ok))].
Qed.

Lemma bu_encl_r a b : okBox a -> okBox b -> encloses (bu a b) b.
Proof.
  intros (? & ? & ? & ?) (? & ? & ? & ?). unfold bu, encloses. simpl.
  repeat split; match goal with |- context [if ?c then _ else _] => destruct c eqn:? end;
  auto; now apply (ol_irrefl (ok := ok)).
Qed.

Lemma fold_bu_ok l : forall a, okBox a -> Forall okBox l -> okBox (fold_left bu l a).
Proof.
  induction l as [|b l IH]; intros a Ha Hl; simpl; auto.
  inversion Hl; subst. apply IH; auto. now apply bu_ok.
Qed.

Lemma fold_bu_encl l : forall a, okBox a -> Forall okBox l ->
  encloses (fold_left bu l a) a /\ (forall b, In b l -> encloses (fold_left bu l a) b).
Proof.
  induction l as [|b l IH]; intros a Ha Hl; simpl.
  - split; [now apply encloses_refl|]. intros b [].
  - inversion Hl; subst.
    assert (okBox (bu a b)) by now apply bu_ok.
    destruct (IH (bu a b)) as [E1 E2]; auto.
    assert (okBox (fold_left bu l (bu a b))) by now apply fold_bu_ok.
    split.
    + apply encloses_trans with (bu a b); auto. now apply bu_encl_l.
    + intros b' [<-|Hb']; auto. apply encloses_trans with (bu a b); auto. now apply bu_encl_r.
Qed.

Lemma boxUnion_ok l : Forall okBox l -> okBox (boxUnion l).
Proof. apply fold_bu_ok, ok_empty. Qed.

Lemma boxUnion_encl l b : Forall okBox l -> In b l -> encloses (boxUnion l) b.
Proof. intros Hl. apply fold_bu_encl; auto using ok_empty. Qed.

Lemma noOverlap_encl q nb b : okBox q -> okBox nb -> okBox b ->
  encloses nb b -> noOverlap q nb = true -> noOverlap q b = true.
Proof.
  intros (? & ? & ? & ?) (? & ? & ? & ?) (? & ? & ? & ?) (E1 & E2 & E3 & E4) Hno.
  unfold noOverlap in *.
  destruct (xltb (bMaxX q) (bMinX b)) eqn:F1; auto.
  destruct (xltb (bMaxY q) (bMinY b)) eqn:F2; auto.
  destruct (xltb (bMaxX b) (bMinX q)) eqn:F3; auto.
  destruct (xltb (bMaxY b) (bMinY q)) eqn:F4; auto. exfalso.
  rewrite (ol_ge_trans (ok := ok) (bMaxX q) (bMinX b) (bMinX nb)) in Hno by auto.
  rewrite (ol_ge_trans (ok := ok) (bMaxY q) (bMinY b) (bMinY nb)) in Hno by auto.
  rewrite (ol_ge_trans (ok := ok) (bMaxX nb) (bMaxX b) (bMinX q)) in Hno by auto.
  rewrite (ol_ge_trans (ok := ok) (bMaxY nb) (bMaxY b) (bMinY q)) in Hno by auto.
  discriminate.
Qed.

(** ** Simulation: any visitor sees what the collecting visitor collects *)

Section Sim.
Context {St : Type} (visitor : St -> nat -> bool * St).
Definition collect (rs : list nat) (i : nat) : bool * list nat := (true, rs ++ [i]).

Lemma queryNode_sim ix q nodeIndex level end_ : forall k pos rs stack d rs' stack',
  queryNode_loop k ix q collect nodeIndex level end_ pos rs stack = Ok (d, rs', stack') ->
  d = false /\ exists l, rs' = rs ++ l /\ forall st,
    let '(go, st') := runVisitor visitor st l in
    if go then queryNode_loop k ix q visitor nodeIndex level end_ pos st stack = Ok (false, st', stack')
    else exists s, queryNode_loop k ix q visitor nodeIndex level end_ pos st stack = Ok (true, st', s).
Proof.
  induction k; intros pos rs stack d rs' stack' H; simpl in *.
  { injection H as <- <- <-. split; auto. exists []. rewrite app_nil_r. simpl. auto. }
  destruct (pos <? end_).
  2:{ injection H as <- <- <-. split; auto. exists []. rewrite app_nil_r. simpl. auto. }
  destruct (rgetI (m_indices ix) (shr2 pos)) as [index| |]; simpl in *; try discriminate.
  destruct (rgetI (m_boxes ix) (shr2 pos)) as [b| |]; simpl in *; try discriminate.
  destruct (noOverlap q b).
  { apply IHk in H. exact H. }
  destruct (nodeIndex <? _).
  - destruct (IHk _ _ _ _ _ _ H) as (Hd & l & -> & Hl). split; auto.
    exists (index :: l). split; [now rewrite <- app_assoc|].
    intros st. simpl. destruct (visitor st index) as [[] st1]; simpl.
    + apply Hl.
    + eauto.
  - apply IHk in H. exact H.
Qed.

Lemma query_sim NodeSize ix q : forall fuel nodeIndex level rs stack rs',
  query_loop fuel NodeSize ix q collect nodeIndex level rs stack = Ok rs' ->
  exists l, rs' = rs ++ l /\ forall st,
    query_loop fuel NodeSize ix q visitor nodeIndex level st stack = Ok (snd (runVisitor visitor st l)).
Proof.
  induction fuel; intros nodeIndex level rs stack rs' H; simpl in *; [discriminate|].
  destruct (rgetI (m_levelBounds ix) level) as [lb| |]; simpl in *; try discriminate.
  destruct (queryNode_loop NodeSize ix q collect nodeIndex level _ nodeIndex rs stack)
    as [[[d rs1] stack1]| |] eqn:E; simpl in *; try discriminate.
  apply queryNode_sim in E. destruct E as (-> & l & -> & Hl).
  destruct stack1 as [|level' [|nodeIndex' stack']].
  - injection H as <-. exists l. split; auto. intros st. specialize (Hl st).
    destruct (runVisitor visitor st l) as [[] st']; simpl.
    + rewrite Hl. reflexivity.
    + destruct Hl as (s & ->). simpl. destruct s as [|? [|? ?]]; auto.
  - injection H as <-. exists l. split; auto. intros st. specialize (Hl st).
    destruct (runVisitor visitor st l) as [[] st']; simpl.
    + rewrite Hl. reflexivity.
    + destruct Hl as (s & ->). simpl. destruct s as [|? [|? ?]]; auto.
  - apply IHfuel in H. destruct H as (l2 & -> & Hl2).
    exists (l ++ l2). split; [now rewrite app_assoc|]. intros st. specialize (Hl st).
    rewrite runVisitor_app.
    destruct (runVisitor visitor st l) as [[] st']; simpl.
    + rewrite Hl. simpl. apply Hl2.
    + destruct Hl as (s & ->). simpl. destruct s as [|? [|? ?]]; auto.
Qed.
End Sim.

(** ** Exactness *)
Section Exact.
Context (NodeSize : nat) (HN : 2 <= NodeSize).
Context (bs : list box) (L : nat) (ix : index) (W : wf NodeSize bs L ix).
Hypothesis okbs : Forall okBox bs.

Local Notation n := (length bs).
Local Notation c k := (cnt NodeSize n k).
Local Notation s k := (start NodeSize n k).
Local Notation bx i := (getB (m_boxes ix) i).

Lemma HN1 : 1 <= NodeSize. Proof. lia. Qed.

(** first item below node [x] of level [lev] *)
Fixpoint lo (lev x : nat) : nat :=
  match lev with 0 => x | S l => lo l (Nat.min (x * NodeSize) (c l)) end.
(** number of inner nodes at levels 1..lev left of node [x] of level [lev] *)
Fixpoint vlo (lev x : nat) : nat :=
  match lev with 0 => 0 | S l => x + vlo l (Nat.min (x * NodeSize) (c l)) end.

Lemma lo_mono lev : forall x y, x <= y -> lo lev x <= lo lev y.
Proof. induction lev; intros x y H; simpl; auto. apply IHlev. nia. Qed.
Lemma vlo_mono lev : forall x y, x <= y -> vlo lev x <= vlo lev y.
Proof.
  induction lev; intros x y H; simpl; auto.
  specialize (IHlev (Nat.min (x * NodeSize) (c lev)) (Nat.min (y * NodeSize) (c lev))).
  nia.
Qed.
Lemma lo_0 lev : lo lev 0 = 0.
Proof. induction lev; simpl; auto. Qed.
Lemma vlo_0 lev : vlo lev 0 = 0.
Proof. induction lev; simpl; auto. Qed.

Lemma cnt_cover lev : c lev <= c (S lev) * NodeSize.
Proof.
  destruct (le_lt_dec (c lev) (c (S lev) * NodeSize)); auto. exfalso.
  apply (cdiv_spec _ _ _ HN1) in l. simpl in l. lia.
Qed.

Lemma lo_full lev : lo lev (c lev) = n.
Proof.
  induction lev; [reflexivity|]. cbn [lo]. rewrite Nat.min_r by apply cnt_cover. apply IHlev.
Qed.
Lemma vlo_full lev : vlo lev (c lev) + n = s (S lev).
Proof.
  induction lev; [reflexivity|]. cbn [vlo]. rewrite Nat.min_r by apply cnt_cover.
  cbn [start] in *. lia.
Qed.

Lemma lo_find lev : forall k x i, lo lev x <= i < lo lev (x + k) ->
  exists p, x <= p < x + k /\ lo lev p <= i < lo lev (p + 1).
Proof.
  induction k; intros x i H; [rewrite Nat.add_0_r in H; lia|].
  destruct (lt_dec i (lo lev (x + 1))).
  - exists x. lia.
  - destruct (IHk (x + 1) i) as (p & Hp & Hi).
    + replace (x + 1 + k) with (x + S k) by lia. lia.
    + exists p. lia.
Qed.

Lemma s_le_nodes lev : lev <= S L -> s lev <= m_numNodes ix.
Proof. intros H. rewrite (wf_nodes _ _ _ _ W). now apply start_mono. Qed.

Lemma item_box_in i : i < n -> In (bx i) bs.
Proof.
  intros Hi. destruct (wf_items _ _ _ _ W) as (ids & P & H).
  destruct (nth_error ids i) as [k|] eqn:E.
  - destruct (H i k E) as (_ & b & Hb & Hx). unfold getB. rewrite Hx. eapply nth_error_In; eauto.
  - apply nth_error_None in E. apply Permutation_length in P. rewrite seq_length in P. lia.
Qed.

Lemma children_seq lev j : lev < L -> j < c (S lev) ->
  map (getB (m_boxes ix)) (seq (s lev + j * NodeSize) (childRange NodeSize (c lev) j)) =
  map (fun p => bx (s lev + p)) (seq (j * NodeSize) (Nat.min ((j + 1) * NodeSize) (c lev) - j * NodeSize)).
Proof.
  intros H1 H2. unfold childRange.
  generalize (Nat.min ((j + 1) * NodeSize) (c lev) - j * NodeSize). intros k.
  generalize (j * NodeSize). intros x. revert x. induction k; intros x; simpl; auto.
  f_equal. rewrite <- IHk. f_equal. f_equal. lia.
Qed.

Lemma node_box lev j : lev < L -> j < c (S lev) ->
  bx (s (S lev) + j) = boxUnion
    (map (fun p => bx (s lev + p))
       (seq (j * NodeSize) (Nat.min ((j + 1) * NodeSize) (c lev) - j * NodeSize))).
Proof.
  intros H1 H2. destruct (wf_node _ _ _ _ W lev H1 j H2) as [_ E].
  unfold getB at 1. rewrite E. f_equal. now apply children_seq.
Qed.

Lemma box_ok lev : lev <= L -> forall j, j < c lev -> okBox (bx (s lev + j)).
Proof.
  induction lev; intros Hl j Hj.
  - simpl. rewrite Forall_forall in okbs. apply okbs, item_box_in. auto.
  - rewrite node_box by auto. apply boxUnion_ok. apply Forall_forall. intros b Hb.
    apply in_map_iff in Hb. destruct Hb as (p & <- & Hp). apply in_seq in Hp.
    apply IHlev; [lia|]. assert (j * NodeSize < c lev) by (apply cdiv_spec; auto using HN1). lia.
Qed.

Lemma box_encl lev : lev <= L -> forall j i, j < c lev -> lo lev j <= i < lo lev (j + 1) ->
  i < n -> encloses (bx (s lev + j)) (bx i).
Proof.
  induction lev; intros Hl j i Hj Hi Hin.
  - simpl in *. replace i with j by lia. apply encloses_refl.
    apply (box_ok 0); auto.
  - cbn [lo] in Hi.
    assert (Hlt : j * NodeSize < c lev) by (apply cdiv_spec; auto using HN1).
    rewrite (Nat.min_l (j * NodeSize)) in Hi by lia.
    destruct (lo_find lev (Nat.min ((j + 1) * NodeSize) (c lev) - j * NodeSize) (j * NodeSize) i)
      as (p & Hp & Hpi).
    { replace (j * NodeSize + (Nat.min ((j + 1) * NodeSize) (c lev) - j * NodeSize))
        with (Nat.min ((j + 1) * NodeSize) (c lev)) by nia. auto. }
    apply encloses_trans with (bx (s lev + p)).
    + apply box_ok; auto.
    + apply box_ok; lia.
    + apply (box_ok 0); [lia|auto].
    + rewrite node_box by auto. apply boxUnion_encl.
      * apply Forall_forall. intros b Hb.
        apply in_map_iff in Hb. destruct Hb as (p' & <- & Hp'). apply in_seq in Hp'.
        apply box_ok; lia.
      * apply in_map_iff. exists p. split; auto. apply in_seq. lia.
    + apply IHlev; lia.
Qed.

(** *** The traversal *)
Context (q : box) (okq : okBox q).
Context (ids : list nat)
  (Hids : forall i k, nth_error ids i = Some k ->
       nth_error (m_indices ix) i = Some (Some k) /\
       exists b, nth_error bs k = Some b /\ nth_error (m_boxes ix) i = Some (Some b))
  (Hidl : length ids = n).

Definition hits (a b : nat) : list nat :=
  map (fun i => nth i ids 0) (filter (fun i => negb (noOverlap q (bx i))) (seq a (b - a))).

Lemma hits_app a b d : a <= b <= d -> hits a b ++ hits b d = hits a d.
Proof.
  intros H. unfold hits. rewrite <- map_app, <- filter_app. do 2 f_equal.
  replace (d - a) with ((b - a) + (d - b)) by lia. rewrite seq_app. do 2 f_equal; lia.
Qed.

Lemma hits_nil a b : (forall i, a <= i < b -> noOverlap q (bx i) = true) -> hits a b = [].
Proof.
  intros H. unfold hits. replace (filter _ _) with (@nil nat); auto.
  assert (G : forall i, In i (seq a (b - a)) -> negb (noOverlap q (bx i)) = false).
  { intros i Hi. apply in_seq in Hi. rewrite H; auto. lia. }
  induction (seq a (b - a)) as [|x l IH]; auto. simpl.
  rewrite (G x) by now left. apply IH. intros i Hi. apply G. now right.
Qed.

(** stack entries: block [j] of level [lev] *)
Definition flat (es : list (nat * nat)) : list nat :=
  flat_map (fun e => [snd e; 4 * (s (snd e) + fst e * NodeSize)]) es.

Definition valid (e : nat * nat) : Prop := snd e <= L /\ fst e * NodeSize < c (snd e).
Definition hi_ (e : nat * nat) : nat := Nat.min ((fst e + 1) * NodeSize) (c (snd e)).
Definition hitsE (e : nat * nat) : list nat :=
  hits (lo (snd e) (fst e * NodeSize)) (lo (snd e) (hi_ e)).
Definition weight (e : nat * nat) : nat :=
  1 + (vlo (snd e) (hi_ e) - vlo (snd e) (fst e * NodeSize)).
Definition weights (es : list (nat * nat)) : nat := list_sum (map weight es).

Lemma read_cell lev p : lev <= L -> p < c lev ->
  rgetI (m_boxes ix) (shr2 (4 * (s lev + p))) = Ok (bx (s lev + p)).
Proof.
  intros Hl Hp. rewrite shr2_4. apply rgetI_getB with (w := m_numNodes ix).
  - apply (wf_init _ _ _ _ W).
  - assert (s (S lev) <= m_numNodes ix) by (apply s_le_nodes; lia). cbn [start] in *. lia.
Qed.

Lemma read_item i : i < n -> rgetI (m_indices ix) (shr2 (4 * i)) = Ok (nth i ids 0).
Proof.
  intros Hi. rewrite shr2_4. unfold rgetI.
  destruct (nth_error ids i) as [k|] eqn:E.
  - destruct (Hids i k E) as [-> _]. now rewrite (nth_error_nth _ _ _ E).
  - apply nth_error_None in E. lia.
Qed.

Lemma read_node lev j : lev < L -> j < c (S lev) ->
  rgetI (m_indices ix) (shr2 (4 * (s (S lev) + j))) = Ok (4 * (s lev + j * NodeSize)).
Proof.
  intros Hl Hj. rewrite shr2_4. unfold rgetI.
  destruct (wf_node _ _ _ _ W lev Hl j Hj) as [-> _]. reflexivity.
Qed.

(** leaf nodes *)
Lemma queryNode_leaf nodeIndex e : e <= n -> nodeIndex < 4 * n -> forall k p rs stack,
  p <= e -> e - p <= k ->
  queryNode_loop k ix q collect nodeIndex 0 (4 * e) (4 * p) rs stack
  = Ok (false, rs ++ hits p e, stack).
Proof.
  intros He Hni. induction k; intros p rs stack Hp Hk.
  - replace p with e by lia. unfold hits. rewrite Nat.sub_diag. simpl. now rewrite app_nil_r.
  - cbn [queryNode_loop]. destruct (Nat.ltb_spec (4 * p) (4 * e)).
    + rewrite read_item by lia. cbn [bind].
      pose proof (read_cell 0 p ltac:(lia) ltac:(simpl; lia)) as R. simpl start in R.
      rewrite Nat.add_0_l in R. rewrite R. cbn [bind]. clear R.
      rewrite (wf_n _ _ _ _ W). rewrite <- (hits_app p (p + 1) e) by lia.
      assert (H1 : hits p (p + 1) = if noOverlap q (bx p) then [] else [nth p ids 0]).
      { unfold hits. replace (p + 1 - p) with 1 by lia. simpl.
        destruct (noOverlap q (bx p)); reflexivity. }
      rewrite H1. replace (4 * p + 4) with (4 * (p + 1)) by lia.
      destruct (noOverlap q (bx p)).
      * rewrite IHk by lia. reflexivity.
      * destruct (Nat.ltb_spec nodeIndex (n * 4)); [|lia]. unfold collect at 1. cbn [negb].
        rewrite IHk by lia. rewrite <- app_assoc. reflexivity.
    + replace p with e by lia. unfold hits. rewrite Nat.sub_diag. simpl. now rewrite app_nil_r.
Qed.

Lemma perm_swap_mid {A} (a b d : list A) : Permutation (a ++ b ++ d) (b ++ a ++ d).
Proof. rewrite !app_assoc. apply Permutation_app_tail, Permutation_app_comm. Qed.

(** inner nodes *)
Lemma queryNode_inner nodeIndex lev e : lev < L -> e <= c (S lev) -> 4 * n <= nodeIndex ->
  forall k p rs es, p <= e -> e - p <= k -> Forall valid es ->
  exists es', queryNode_loop k ix q collect nodeIndex (S lev)
      (4 * (s (S lev) + e)) (4 * (s (S lev) + p)) rs (flat es) = Ok (false, rs, flat es') /\
    Forall valid es' /\
    Permutation (flat_map hitsE es') (hits (lo (S lev) p) (lo (S lev) e) ++ flat_map hitsE es) /\
    weights es' <= weights es + (vlo (S lev) e - vlo (S lev) p).
Proof.
  intros Hlev He Hni. induction k; intros p rs es Hp Hk Hv.
  - exists es. assert (p = e) by lia. subst p. split; [reflexivity|]. split; [auto|].
    split; [|lia]. unfold hits. rewrite Nat.sub_diag. simpl. apply Permutation_refl.
  - cbn [queryNode_loop]. destruct (Nat.ltb_spec (4 * (s (S lev) + p)) (4 * (s (S lev) + e))).
    + rewrite read_node by lia. cbn [bind]. rewrite read_cell by lia. cbn [bind].
      replace (4 * (s (S lev) + p) + 4) with (4 * (s (S lev) + (p + 1))) by lia.
      assert (Hlm : lo (S lev) p <= lo (S lev) (p + 1) <= lo (S lev) e).
      { split; apply lo_mono; lia. }
      assert (Hvm : vlo (S lev) p <= vlo (S lev) (p + 1) <= vlo (S lev) e).
      { split; apply vlo_mono; lia. }
      assert (Hpl : p * NodeSize < c lev) by (apply cdiv_spec; auto using HN1; simpl in He; lia).
      rewrite <- (hits_app _ _ _ Hlm).
      destruct (noOverlap q (bx (s (S lev) + p))) eqn:Hno.
      * destruct (IHk (p + 1) rs es) as (es' & E & V & P & Wt); auto; try lia.
        exists es'. split; [exact E|]. split; [auto|]. split; [|lia].
        rewrite (hits_nil (lo (S lev) p)); [exact P|].
        intros i Hi.
        assert (i < n).
        { assert (lo (S lev) (p + 1) <= lo (S lev) (c (S lev))) by (apply lo_mono; lia).
          rewrite lo_full in *. lia. }
        apply noOverlap_encl with (nb := bx (s (S lev) + p)); auto.
        -- apply box_ok; lia.
        -- apply (box_ok 0); [lia|auto].
        -- apply box_encl; auto; lia.
      * rewrite (wf_n _ _ _ _ W). destruct (Nat.ltb_spec nodeIndex (n * 4)); [lia|].
        replace (S lev - 1) with lev by lia.
        change (lev :: 4 * (s lev + p * NodeSize) :: flat es) with (flat ((p, lev) :: es)).
        assert (Hv' : Forall valid ((p, lev) :: es)).
        { constructor; auto. split; simpl; auto. lia. }
        destruct (IHk (p + 1) rs ((p, lev) :: es)) as (es' & E & V & P & Wt); auto; try lia.
        exists es'. split; [exact E|]. split; [auto|].
        assert (Hh : hitsE (p, lev) = hits (lo (S lev) p) (lo (S lev) (p + 1))).
        { unfold hitsE, hi_. cbn [fst snd lo]. rewrite (Nat.min_l (p * NodeSize)) by lia. reflexivity. }
        assert (Hw : weight (p, lev) = vlo (S lev) (p + 1) - vlo (S lev) p).
        { unfold weight, hi_. cbn [fst snd vlo]. rewrite (Nat.min_l (p * NodeSize)) by lia.
          assert (vlo lev (p * NodeSize) <= vlo lev (Nat.min ((p + 1) * NodeSize) (c lev)))
            by (apply vlo_mono; lia). lia. }
        split.
        -- rewrite P. simpl flat_map. rewrite Hh. rewrite <- app_assoc. apply perm_swap_mid.
        -- change (weights ((p, lev) :: es)) with (weight (p, lev) + weights es) in Wt. lia.
    + exists es. assert (p = e) by lia. subst p. split; [reflexivity|]. split; [auto|].
      split; [|lia]. unfold hits. rewrite Nat.sub_diag. simpl. apply Permutation_refl.
Qed.

Lemma query_loop_spec : forall fuel cur es rs,
  valid cur -> Forall valid es -> weight cur + weights es <= fuel ->
  exists rs', query_loop fuel NodeSize ix q collect
      (4 * (s (snd cur) + fst cur * NodeSize)) (snd cur) rs (flat es) = Ok rs' /\
    Permutation rs' (rs ++ hitsE cur ++ flat_map hitsE es).
Proof.
  induction fuel; intros [j lev] es rs Hc Hes Hf; [unfold weight in Hf; lia|].
  destruct Hc as [Hlev Hj]. cbn [fst snd] in *.
  cbn [query_loop]. unfold rgetI at 1. rewrite (wf_lb _ _ _ _ W) by auto. cbn [bind].
  assert (He : Nat.min (4 * (s lev + j * NodeSize) + NodeSize * 4) (4 * s (S lev))
               = 4 * (s lev + hi_ (j, lev))).
  { unfold hi_. cbn [fst snd start]. nia. }
  rewrite He. set (e := hi_ (j, lev)) in *.
  assert (Hec : j * NodeSize <= e <= c lev /\ e - j * NodeSize <= NodeSize).
  { unfold e, hi_. cbn [fst snd]. nia. }
  destruct lev as [|lev].
  - cbn [start]. rewrite !Nat.add_0_l.
    assert (e <= n) by (apply Hec).
    rewrite (queryNode_leaf (4 * (j * NodeSize)) e) by (simpl in *; lia). cbn [bind].
    assert (Hh : hitsE (j, 0) = hits (j * NodeSize) e) by reflexivity.
    destruct es as [|[j' lev'] es].
    + simpl. exists (rs ++ hits (j * NodeSize) e). split; auto. rewrite Hh, app_nil_r. auto.
    + simpl flat. cbn [fst snd]. inversion Hes; subst.
      destruct (IHfuel (j', lev') es (rs ++ hits (j * NodeSize) e)) as (rs' & E & P); auto.
      { change (weights ((j', lev') :: es)) with (weight (j', lev') + weights es) in Hf.
        unfold weight in Hf at 1. lia. }
      exists rs'. split; [exact E|]. rewrite P, Hh. simpl. rewrite <- !app_assoc. auto.
  - assert (Hn4 : 4 * n <= 4 * (s (S lev) + j * NodeSize)).
    { assert (s 1 <= s (S lev)) by (apply start_mono; lia). simpl (s 1) in *. lia. }
    destruct (queryNode_inner (4 * (s (S lev) + j * NodeSize)) lev e ltac:(lia) ltac:(apply Hec) Hn4
                NodeSize (j * NodeSize) rs es ltac:(lia) ltac:(apply Hec) Hes)
      as (es' & E & V & P & Wt).
    rewrite E. cbn [bind]. clear E.
    assert (Hh : hitsE (j, S lev) = hits (lo (S lev) (j * NodeSize)) (lo (S lev) e)) by reflexivity.
    rewrite Hh.
    assert (Hwc : weight (j, S lev) = 1 + (vlo (S lev) e - vlo (S lev) (j * NodeSize))) by reflexivity.
    destruct es' as [|[j' lev'] es'].
    + simpl. exists rs. split; auto. simpl in P. apply Permutation_nil in P.
      cbn [lo] in P. rewrite P. now rewrite app_nil_r.
    + simpl flat. cbn [fst snd]. inversion V; subst.
      destruct (IHfuel (j', lev') es' rs) as (rs' & E & P'); auto.
      { change (weights ((j', lev') :: es')) with (weight (j', lev') + weights es') in Wt. lia. }
      exists rs'. split; [exact E|]. rewrite P'. apply Permutation_app_head. exact P.
Qed.

Lemma root_hits : hitsE (0, L) = hits 0 n.
Proof.
  unfold hitsE, hi_. cbn [fst snd]. simpl (0 * NodeSize). rewrite lo_0.
  rewrite (wf_top _ _ _ _ W). replace (Nat.min ((0 + 1) * NodeSize) 1) with 1 by lia.
  rewrite <- (wf_top _ _ _ _ W) at 1. now rewrite lo_full.
Qed.

Lemma root_pos : 4 * m_numNodes ix - 4 = 4 * (s L + 0 * NodeSize).
Proof.
  rewrite (wf_nodes _ _ _ _ W). cbn [start]. rewrite (wf_top _ _ _ _ W). lia.
Qed.

Lemma root_weight : weight (0, L) <= S (m_numNodes ix).
Proof.
  unfold weight, hi_. cbn [fst snd]. simpl (0 * NodeSize). rewrite vlo_0, (wf_top _ _ _ _ W).
  replace (Nat.min ((0 + 1) * NodeSize) 1) with (c L) by (rewrite (wf_top _ _ _ _ W); lia).
  pose proof (vlo_full L). rewrite (wf_nodes _ _ _ _ W). lia.
Qed.

Lemma root_valid : valid (0, L).
Proof. split; simpl; auto. rewrite (wf_top _ _ _ _ W). lia. Qed.

Lemma query_hits rs :
  exists rs', visitQuery NodeSize ix (bMinX q) (bMinY q) (bMaxX q) (bMaxY q) collect rs = Ok rs' /\
    Permutation rs' (rs ++ hits 0 n).
Proof.
  unfold visitQuery. rewrite (wf_levels _ _ _ _ W), root_pos.
  replace (S L - 1) with L by lia.
  destruct (query_loop_spec (S (m_numNodes ix)) (0, L) [] rs root_valid (Forall_nil _))
    as (rs' & E & P).
  { change (weights []) with 0. pose proof root_weight. lia. }
  replace (mkBox (bMinX q) (bMinY q) (bMaxX q) (bMaxY q)) with q by now destruct q.
  exists rs'. split; [exact E|]. rewrite P. cbn [flat_map]. rewrite app_nil_r, root_hits. auto.
Qed.

Lemma hits_ids :
  hits 0 n = filter (fun k => match nth_error bs k with Some b => negb (noOverlap q b) | None => false end) ids.
Proof.
  unfold hits. rewrite Nat.sub_0_r.
  transitivity (filter (fun k => match nth_error bs k with Some b => negb (noOverlap q b) | None => false end)
     (map (fun i => nth i ids 0) (seq 0 n))).
  - assert (G : forall l, (forall i, In i l -> i < n) ->
      map (fun i => nth i ids 0) (filter (fun i => negb (noOverlap q (bx i))) l)
      = filter (fun k => match nth_error bs k with Some b => negb (noOverlap q b) | None => false end)
          (map (fun i => nth i ids 0) l)).
    { induction l as [|i l IH]; intros Hl; auto. simpl.
      assert (Hi : i < n) by (apply Hl; now left).
      destruct (nth_error ids i) as [k|] eqn:E.
      - rewrite (nth_error_nth _ _ _ E). destruct (Hids i k E) as (_ & b & Hb & Hx).
        rewrite Hb. unfold getB at 1. rewrite Hx.
        destruct (negb (noOverlap q b)); simpl; rewrite IH; auto.
        + now rewrite (nth_error_nth _ _ _ E).
        + intros; apply Hl; now right.
        + intros; apply Hl; now right.
      - apply nth_error_None in E. lia. }
    apply G. intros i Hi. apply in_seq in Hi. lia.
  - f_equal. apply nth_error_ext. intros i. rewrite nth_error_map.
    destruct (lt_dec i n) as [Hlt|Hge].
    + rewrite (nth_error_nth' _ 0) by (rewrite seq_length; auto). rewrite seq_nth by auto. simpl.
      symmetry. apply nth_error_nth'. lia.
    + assert (nth_error (seq 0 n) i = None) as -> by (apply nth_error_None; rewrite seq_length; lia).
      symmetry. apply nth_error_None. lia.
Qed.

(** ** visitItemBoxes *)
Lemma itemBoxes_loop_spec {St} (visitor : St -> nat -> box -> bool * St) : forall k i st,
  i <= n -> n - i < k ->
  visitItemBoxes_loop k ix visitor (4 * n) (4 * i) st =
  Ok (snd (runVisitor (fun st p => visitor st (fst p) (snd p)) st
        (map (fun i => (nth i ids 0, bx i)) (seq i (n - i))))).
Proof.
  induction k; intros i st Hi Hk; [lia|]. cbn [visitItemBoxes_loop].
  destruct (Nat.ltb_spec (4 * i) (4 * n)).
  - rewrite read_item by lia. cbn [bind].
    pose proof (read_cell 0 i ltac:(lia) ltac:(simpl; lia)) as R. simpl start in R.
    rewrite Nat.add_0_l in R. rewrite R. cbn [bind]. clear R.
    replace (n - i) with (S (n - (i + 1))) by lia. cbn [seq map runVisitor fst snd].
    destruct (visitor st (nth i ids 0) (bx i)) as [[] st']; cbn [negb].
    + replace (4 * i + 4) with (4 * (i + 1)) by lia. rewrite IHk by lia.
      replace (S i) with (i + 1) by lia. reflexivity.
    + reflexivity.
  - replace (n - i) with 0 by lia. reflexivity.
Qed.

(** ** visitBoundingBoxes *)
Definition collectBB (rs : list (nat * box)) (lev : nat) (b : box) : bool * list (nat * box) :=
  (true, rs ++ [(lev, b)]).

Definition cells lev x y : list (nat * box) :=
  map (fun p => (lev, bx (s lev + p))) (seq x (y - x)).

Fixpoint rep (lev x y : nat) : list (nat * box) :=
  cells lev x y ++
  match lev with
  | 0 => []
  | S l => rep l (Nat.min (x * NodeSize) (c l)) (Nat.min (y * NodeSize) (c l))
  end.

Lemma cells_app lev x y z : x <= y <= z -> cells lev x y ++ cells lev y z = cells lev x z.
Proof.
  intros H. unfold cells. rewrite <- map_app. f_equal.
  replace (z - x) with ((y - x) + (z - y)) by lia. rewrite seq_app. do 2 f_equal; lia.
Qed.

Lemma cells_nil lev x : cells lev x x = [].
Proof. unfold cells. now rewrite Nat.sub_diag. Qed.

Lemma rep_nil lev : forall x, rep lev x x = [].
Proof. induction lev; intros x; simpl; rewrite cells_nil; auto. simpl. apply IHlev. Qed.

Lemma rep_app lev : forall x y z, x <= y <= z ->
  Permutation (rep lev x y ++ rep lev y z) (rep lev x z).
Proof.
  induction lev; intros x y z H; simpl.
  - rewrite !app_nil_r. now rewrite cells_app.
  - rewrite <- (cells_app (S lev) x y z H).
    rewrite <- (IHlev (Nat.min (x * NodeSize) (c lev)) (Nat.min (y * NodeSize) (c lev))
                  (Nat.min (z * NodeSize) (c lev))) by nia.
    rewrite <- !app_assoc. apply Permutation_app_head. apply perm_swap_mid.
Qed.

Definition repE (e : nat * nat) : list (nat * box) := rep (snd e) (fst e * NodeSize) (hi_ e).

Lemma bbNode_leaf nodeIndex e : e <= n -> nodeIndex < 4 * n -> forall k p rs stack,
  p <= e -> e - p <= k ->
  bbNode_loop k ix collectBB nodeIndex 0 (4 * e) (4 * p) rs stack
  = Ok (false, rs ++ cells 0 p e, stack).
Proof.
  intros He Hni. induction k; intros p rs stack Hp Hk.
  - replace p with e by lia. rewrite cells_nil, app_nil_r. reflexivity.
  - cbn [bbNode_loop]. destruct (Nat.ltb_spec (4 * p) (4 * e)).
    + rewrite read_item by lia. cbn [bind].
      pose proof (read_cell 0 p ltac:(lia) ltac:(simpl; lia)) as R. simpl start in R.
      rewrite Nat.add_0_l in R. rewrite R. cbn [bind]. clear R.
      rewrite (wf_n _ _ _ _ W). rewrite <- (cells_app 0 p (p + 1) e) by lia.
      unfold collectBB at 1. cbn [negb].
      replace (4 * p + 4) with (4 * (p + 1)) by lia.
      destruct (Nat.leb_spec (n * 4) nodeIndex); [lia|]. rewrite IHk by lia.
      rewrite <- app_assoc. unfold cells at 2. replace (p + 1 - p) with 1 by lia. reflexivity.
    + replace p with e by lia. rewrite cells_nil, app_nil_r. reflexivity.
Qed.

Lemma bbNode_inner nodeIndex lev e : lev < L -> e <= c (S lev) -> 4 * n <= nodeIndex ->
  forall k p rs es, p <= e -> e - p <= k -> Forall valid es ->
  exists es', bbNode_loop k ix collectBB nodeIndex (S lev)
      (4 * (s (S lev) + e)) (4 * (s (S lev) + p)) rs (flat es)
      = Ok (false, rs ++ cells (S lev) p e, flat es') /\
    Forall valid es' /\
    Permutation (flat_map repE es')
      (rep lev (Nat.min (p * NodeSize) (c lev)) (Nat.min (e * NodeSize) (c lev)) ++ flat_map repE es) /\
    weights es' <= weights es + (vlo (S lev) e - vlo (S lev) p).
Proof.
  intros Hlev He Hni. induction k; intros p rs es Hp Hk Hv.
  - exists es. assert (p = e) by lia. subst p. rewrite cells_nil, app_nil_r, rep_nil.
    split; [reflexivity|]. split; [auto|]. split; [|lia]. apply Permutation_refl.
  - cbn [bbNode_loop]. destruct (Nat.ltb_spec (4 * (s (S lev) + p)) (4 * (s (S lev) + e))).
    + rewrite read_node by lia. cbn [bind]. rewrite read_cell by lia. cbn [bind].
      replace (4 * (s (S lev) + p) + 4) with (4 * (s (S lev) + (p + 1))) by lia.
      assert (Hvm : vlo (S lev) p <= vlo (S lev) (p + 1) <= vlo (S lev) e).
      { split; apply vlo_mono; lia. }
      assert (Hpl : p * NodeSize < c lev) by (apply cdiv_spec; auto using HN1; simpl in He; lia).
      unfold collectBB at 1. cbn [negb].
      rewrite (wf_n _ _ _ _ W). destruct (Nat.leb_spec (n * 4) nodeIndex); [|lia].
      replace (S lev - 1) with lev by lia.
      change (lev :: 4 * (s lev + p * NodeSize) :: flat es) with (flat ((p, lev) :: es)).
      assert (Hv' : Forall valid ((p, lev) :: es)).
      { constructor; auto. split; simpl; auto. lia. }
      destruct (IHk (p + 1) (rs ++ [(S lev, bx (s (S lev) + p))]) ((p, lev) :: es))
        as (es' & E & V & P & Wt); auto; try lia.
      exists es'. split; [|split; [auto|]].
      { rewrite E. rewrite <- (cells_app (S lev) p (p + 1) e) by lia. rewrite <- app_assoc.
        unfold cells at 2. replace (p + 1 - p) with 1 by lia. reflexivity. }
      assert (Hw : weight (p, lev) = vlo (S lev) (p + 1) - vlo (S lev) p).
      { unfold weight, hi_. cbn [fst snd vlo]. rewrite (Nat.min_l (p * NodeSize)) by lia.
        assert (vlo lev (p * NodeSize) <= vlo lev (Nat.min ((p + 1) * NodeSize) (c lev)))
          by (apply vlo_mono; lia). lia. }
      split.
      -- rewrite P. cbn [flat_map]. unfold repE at 1, hi_. cbn [fst snd].
         rewrite perm_swap_mid, app_assoc. apply Permutation_app_tail.
         rewrite (Nat.min_l (p * NodeSize)) by lia. apply rep_app. nia.
      -- change (weights ((p, lev) :: es)) with (weight (p, lev) + weights es) in Wt. lia.
    + exists es. assert (p = e) by lia. subst p. rewrite cells_nil, app_nil_r, rep_nil.
      split; [reflexivity|]. split; [auto|]. split; [|lia]. apply Permutation_refl.
Qed.

Lemma bb_loop_spec : forall fuel cur es rs,
  valid cur -> Forall valid es -> weight cur + weights es <= fuel ->
  exists rs', bb_loop fuel NodeSize ix collectBB
      (4 * (s (snd cur) + fst cur * NodeSize)) (snd cur) rs (flat es) = Ok rs' /\
    Permutation rs' (rs ++ repE cur ++ flat_map repE es).
Proof.
  induction fuel; intros [j lev] es rs Hc Hes Hf; [unfold weight in Hf; lia|].
  destruct Hc as [Hlev Hj]. cbn [fst snd] in *.
  cbn [bb_loop]. unfold rgetI at 1. rewrite (wf_lb _ _ _ _ W) by auto. cbn [bind].
  assert (He : Nat.min (4 * (s lev + j * NodeSize) + NodeSize * 4) (4 * s (S lev))
               = 4 * (s lev + hi_ (j, lev))).
  { unfold hi_. cbn [fst snd start]. nia. }
  rewrite He. set (e := hi_ (j, lev)) in *.
  assert (Hec : j * NodeSize <= e <= c lev /\ e - j * NodeSize <= NodeSize).
  { unfold e, hi_. cbn [fst snd]. nia. }
  destruct lev as [|lev].
  - cbn [start]. rewrite !Nat.add_0_l.
    assert (e <= n) by (apply Hec).
    rewrite (bbNode_leaf (4 * (j * NodeSize)) e) by (simpl in *; lia). cbn [bind].
    assert (Hh : repE (j, 0) = cells 0 (j * NodeSize) e).
    { unfold repE. cbn [fst snd rep]. now rewrite app_nil_r. }
    destruct es as [|[j' lev'] es].
    + simpl flat. cbv iota. exists (rs ++ cells 0 (j * NodeSize) e). split; auto.
      rewrite Hh. simpl. rewrite app_nil_r. auto.
    + simpl flat. cbn [fst snd]. inversion Hes; subst.
      destruct (IHfuel (j', lev') es (rs ++ cells 0 (j * NodeSize) e)) as (rs' & E & P); auto.
      { change (weights ((j', lev') :: es)) with (weight (j', lev') + weights es) in Hf.
        unfold weight in Hf at 1. lia. }
      exists rs'. split; [exact E|]. rewrite P, Hh. cbn [flat_map]. rewrite <- !app_assoc. auto.
  - assert (Hn4 : 4 * n <= 4 * (s (S lev) + j * NodeSize)).
    { assert (s 1 <= s (S lev)) by (apply start_mono; lia). simpl (s 1) in *. lia. }
    destruct (bbNode_inner (4 * (s (S lev) + j * NodeSize)) lev e ltac:(lia) ltac:(apply Hec) Hn4
                NodeSize (j * NodeSize) rs es ltac:(lia) ltac:(apply Hec) Hes)
      as (es' & E & V & P & Wt).
    rewrite E. cbn [bind]. clear E.
    assert (Hh : repE (j, S lev) = cells (S lev) (j * NodeSize) e ++
       rep lev (Nat.min (j * NodeSize * NodeSize) (c lev)) (Nat.min (e * NodeSize) (c lev))) by reflexivity.
    assert (Hwc : weight (j, S lev) = 1 + (vlo (S lev) e - vlo (S lev) (j * NodeSize))) by reflexivity.
    destruct es' as [|[j' lev'] es'].
    + simpl flat. cbv iota. eexists. split; [reflexivity|]. simpl in P. rewrite Hh.
      rewrite <- !app_assoc, <- P. now rewrite app_nil_r.
    + simpl flat. cbn [fst snd]. inversion V; subst.
      destruct (IHfuel (j', lev') es' (rs ++ cells (S lev) (j * NodeSize) e)) as (rs' & E & P'); auto.
      { change (weights ((j', lev') :: es')) with (weight (j', lev') + weights es') in Wt. lia. }
      exists rs'. split; [exact E|]. rewrite P', Hh. rewrite <- !app_assoc.
      do 2 apply Permutation_app_head. exact P.
Qed.

Lemma bb_all :
  exists rs', visitBoundingBoxes NodeSize ix collectBB [] = Ok rs' /\
    Permutation rs' (rep L 0 (c L)).
Proof.
  unfold visitBoundingBoxes. rewrite (wf_levels _ _ _ _ W), root_pos.
  replace (S L - 1) with L by lia.
  destruct (bb_loop_spec (S (m_numNodes ix)) (0, L) [] [] root_valid (Forall_nil _))
    as (rs' & E & P).
  { change (weights []) with 0. pose proof root_weight. lia. }
  exists rs'. split; [exact E|]. rewrite P. cbn [flat_map]. rewrite app_nil_r. simpl app.
  unfold repE, hi_. cbn [fst snd]. rewrite (wf_top _ _ _ _ W).
  replace (Nat.min ((0 + 1) * NodeSize) 1) with 1 by lia. simpl (0 * NodeSize). auto.
Qed.

Lemma rep_full lev : rep lev 0 (c lev) =
  flat_map (fun l => cells l 0 (c l)) (rev (seq 0 (S lev))).
Proof.
  induction lev.
  - simpl. now rewrite !app_nil_r.
  - rewrite seq_S, rev_app_distr. cbn [rep rev app flat_map]. f_equal.
    simpl (0 * NodeSize). rewrite Nat.min_0_l, Nat.min_r by apply cnt_cover. exact IHlev.
Qed.

End Exact.

Section SimBB.
Context {St : Type} (visitor : St -> nat -> box -> bool * St).
Local Notation v := (fun st p => visitor st (fst p) (snd p)).

Lemma bbNode_sim ix nodeIndex level end_ : forall k pos rs stack d rs' stack',
  bbNode_loop k ix collectBB nodeIndex level end_ pos rs stack = Ok (d, rs', stack') ->
  d = false /\ exists l, rs' = rs ++ l /\ forall st,
    let '(go, st') := runVisitor v st l in
    if go then bbNode_loop k ix visitor nodeIndex level end_ pos st stack = Ok (false, st', stack')
    else exists s, bbNode_loop k ix visitor nodeIndex level end_ pos st stack = Ok (true, st', s).
Proof.
  induction k; intros pos rs stack d rs' stack' H; simpl in *.
  { injection H as <- <- <-. split; auto. exists []. rewrite app_nil_r. simpl. auto. }
  destruct (pos <? end_).
  2:{ injection H as <- <- <-. split; auto. exists []. rewrite app_nil_r. simpl. auto. }
  destruct (rgetI (m_indices ix) (shr2 pos)) as [index| |]; simpl in *; try discriminate.
  destruct (rgetI (m_boxes ix) (shr2 pos)) as [b| |]; simpl in *; try discriminate.
  destruct (_ <=? nodeIndex).
  - destruct (IHk _ _ _ _ _ _ H) as (Hd & l & -> & Hl). split; auto.
    exists ((level, b) :: l). split; [now rewrite <- app_assoc|].
    intros st. simpl. destruct (visitor st level b) as [[] st1]; simpl.
    + apply Hl.
    + eauto.
  - destruct (IHk _ _ _ _ _ _ H) as (Hd & l & -> & Hl). split; auto.
    exists ((level, b) :: l). split; [now rewrite <- app_assoc|].
    intros st. simpl. destruct (visitor st level b) as [[] st1]; simpl.
    + apply Hl.
    + eauto.
Qed.

Lemma bb_sim NodeSize ix : forall fuel nodeIndex level rs stack rs',
  bb_loop fuel NodeSize ix collectBB nodeIndex level rs stack = Ok rs' ->
  exists l, rs' = rs ++ l /\ forall st,
    bb_loop fuel NodeSize ix visitor nodeIndex level st stack = Ok (snd (runVisitor v st l)).
Proof.
  induction fuel; intros nodeIndex level rs stack rs' H; simpl in *; [discriminate|].
  destruct (rgetI (m_levelBounds ix) level) as [lb| |]; simpl in *; try discriminate.
  destruct (bbNode_loop NodeSize ix collectBB nodeIndex level _ nodeIndex rs stack)
    as [[[d rs1] stack1]| |] eqn:E; simpl in *; try discriminate.
  apply bbNode_sim in E. destruct E as (-> & l & -> & Hl).
  destruct stack1 as [|level' [|nodeIndex' stack']].
  - injection H as <-. exists l. split; auto. intros st. specialize (Hl st).
    destruct (runVisitor v st l) as [[] st']; simpl.
    + rewrite Hl. reflexivity.
    + destruct Hl as (s & ->). reflexivity.
  - injection H as <-. exists l. split; auto. intros st. specialize (Hl st).
    destruct (runVisitor v st l) as [[] st']; simpl.
    + rewrite Hl. reflexivity.
    + destruct Hl as (s & ->). reflexivity.
  - apply IHfuel in H. destruct H as (l2 & -> & Hl2).
    exists (l ++ l2). split; [now rewrite app_assoc|]. intros st. specialize (Hl st).
    rewrite runVisitor_app.
    destruct (runVisitor v st l) as [[] st']; simpl.
    + rewrite Hl. simpl. apply Hl2.
    + destruct Hl as (s & ->). reflexivity.
Qed.
End SimBB.
End Query.
