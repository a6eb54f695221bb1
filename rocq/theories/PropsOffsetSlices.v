(** * C40, C48: slicing the raw offset (any scalar implementation, any std::sort, any hash order) *)
From Coq Require Import ZArith Lia List Bool Arith Permutation Sorted.
From Verif Require Import Base Num MathUtils PlineSegment SpatialIndex Polyline Intersects Combine Offset StdLaws PropsCoincident PropsSlices.
Import ListNotations.

Section OffsetSlices.
Context {RO : RealOps} {SL : StdLib} {SLaws : StdLaws SL}.

(** ** Specification *)
(** the geometric tests always answer *)
Definition okTests (ts : tests) : Prop := (forall p, exists b, ptValid ts p = Ok b) /\ (forall v w, exists b, hitsOrig ts v w = Ok b).
(** the point was accepted by the distance test *)
Definition accepted (ts : tests) (q : vec) : Prop := ptValid ts q = Ok true.
(** an open slice of at least two vertices, all of them at accepted points *)
Definition goodOffsetSlice (ts : tests) (n : nat) (s : openSlice) : Prop :=
  isClosed (slPline s) = false /\ (2 <= length (vertexes (slPline s)))%nat /\ (exists k, intrStartIndex s = Some k /\ (k < n)%nat) /\
  forall v, In v (vertexes (slPline s)) -> accepted ts (pos v).
(** tables of cut positions *)
Definition okTable (m : vlookup) (n : nat) : Prop := NoDup (map fst m) /\ forall k l, In (k, l) m -> (k < n)%nat /\ l <> [].

(** ** Proof *)
Lemma splitVertex_pos v1 v2 p : pos (splitVertex (splitAtPoint v1 v2 p)) = p \/ pos (splitVertex (splitAtPoint v1 v2 p)) = pos v2.
Proof. unfold splitAtPoint. destruct (bulgeIsZero v1); [now left|]. destruct (_ || _); [now left|]. destruct (fuzzyEqual _ _ _); [now right|now left]. Qed.

(** positions never come from nowhere *)
Lemma addOrReplace_pos s (v : vertex) : vertexes s <> [] -> vertexes (addOrReplaceIfSamePos s v) <> [] /\ isClosed (addOrReplaceIfSamePos s v) = isClosed s /\
  (length (vertexes s) <= length (vertexes (addOrReplaceIfSamePos s v)))%nat /\
  forall w, In w (vertexes (addOrReplaceIfSamePos s v)) -> pos w = pos v \/ exists u, In u (vertexes s) /\ pos w = pos u.
Proof.
  intros Hne. destruct (addOrReplace_cases s v Hne) as [[E|(l & x & E1 & _ & E2)] Hc].
  - rewrite E. split; [intros H; apply app_eq_nil in H; destruct H; discriminate|]. split; [auto|]. split; [rewrite app_length; lia|]. intros w Hw. apply in_app_or in Hw. destruct Hw as [Hw|[<-|[]]]; [right; eauto|now left].
  - rewrite E2. split; [intros H; apply app_eq_nil in H; destruct H; discriminate|]. split; [auto|]. split; [rewrite E1, !app_length; cbn; lia|]. intros w Hw. apply in_app_or in Hw. destruct Hw as [Hw|[<-|[]]].
    + right. exists w. rewrite E1. split; [apply in_or_app; now left|auto].
    + right. exists x. rewrite E1. split; [apply in_or_app; right; now left|reflexivity].
Qed.

Lemma get_last (s : polyline) : vertexes s <> [] -> exists (l : list vertex) (w : vertex), vertexes s = l ++ [w] /\ lastVertex s = Ok w /\ forall v : vertex, setLastVertex s v = Ok (mkPline (isClosed s) (l ++ [v])).
Proof.
  intros Hne. destruct (exists_last Hne) as (l & w & E). exists l. exists w. split; [auto|]. unfold lastVertex, setLastVertex. rewrite E, rev_app_distr. cbn [rev app]. rewrite rev_involutive. auto.
Qed.

Lemma loop_ok ts raw m (wraps : bool) target : okTests ts -> okTable m (length (vertexes raw)) -> (target < length (vertexes raw))%nat -> In target (map fst m) ->
  forall fuel index s, (index < length (vertexes raw))%nat ->
  ((if wraps then steps (length (vertexes raw)) index target else length (vertexes raw) - index) < fuel)%nat -> vertexes s <> [] ->
  exists valid s', offsetSliceLoop fuel ts raw wraps m s index = Ok (valid, s') /\ isClosed s' = isClosed s /\ vertexes s' <> [] /\
    (valid = true -> accepted ts (pos (at_ raw index)) /\ forall v, In v (vertexes s') -> accepted ts (pos v) \/ exists u, In u (vertexes s) /\ pos v = pos u).
Proof.
  intros [Hpt Hho] [Nm Hm] Ht Hin. induction fuel as [|fuel IH]; intros index s Hi Hf Hne; [destruct wraps; lia|].
  cbn [offsetSliceLoop]. rewrite vget_at by auto. cbn [bind].
  destruct (Hpt (pos (at_ raw index))) as (b & Eb). rewrite Eb. cbn [bind]. destruct b; cbn [negb].
  2:{ exists false, s. repeat split; auto; discriminate. }
  destruct (get_last s Hne) as (l0 & w0 & El0 & Elv0 & _). rewrite Elv0. cbn [bind].
  destruct (Hho w0 (at_ raw index)) as (h & Eh). rewrite Eh. cbn [bind]. destruct h.
  { exists false, s. repeat split; auto; discriminate. }
  destruct (addOrReplace_pos s (at_ raw index) Hne) as (Hne1 & Hc1 & _ & Hp1). set (s1 := addOrReplaceIfSamePos s (at_ raw index)) in *. clearbody s1.
  destruct (mfind index m) as [l|] eqn:Em.
  - apply mfind_spec in Em; [|auto]. destruct (Hm _ _ Em) as [_ Hl]. destruct l as [|ip l]; [contradiction|]. cbn [rget nth_error bind].
    destruct (Hpt ip) as (b2 & Eb2). rewrite Eb2. cbn [bind]. destruct b2; cbn [negb].
    2:{ exists false, s1. repeat split; auto; discriminate. }
    unfold size. rewrite vget_at by now apply next_lt. cbn [bind].
    destruct (get_last s1 Hne1) as (l1 & w1 & El1 & Elv1 & Eset). rewrite Elv1. cbn [bind].
    set (us := updatedStart (splitAtPoint w1 (at_ raw (nextWrappingIndex index (length (vertexes raw)))) ip)).
    destruct (Hpt (segMidpoint us (mkVtx ip t0))) as (b3 & Eb3). rewrite Eb3. cbn [bind]. destruct b3; cbn [negb].
    2:{ exists false, s1. repeat split; auto; discriminate. }
    rewrite Eset. cbn [bind].
    destruct (addOrReplace_pos (mkPline (isClosed s1) (l1 ++ [us])) (mkVtx ip t0)) as (Hne2 & Hc2 & _ & Hp2).
    { cbn [vertexes]. intros E; apply app_eq_nil in E; destruct E; discriminate. }
    exists true. eexists. split; [reflexivity|]. cbn [isClosed vertexes] in *. split; [congruence|]. split; [auto|]. intros _. split; [exact Eb|].
    intros v Hv. destruct (Hp2 v Hv) as [->|(u & Hu & ->)]; [left; exact Eb2|].
    assert (G : forall x, In x (vertexes s1) -> accepted ts (pos x) \/ exists u, In u (vertexes s) /\ pos x = pos u).
    { intros x Hx. destruct (Hp1 x Hx) as [->|H]; [left; exact Eb|right; exact H]. }
    apply in_app_or in Hu. destruct Hu as [Hu|[<-|[]]].
    + apply G. rewrite El1. apply in_or_app. now left.
    + unfold us. destruct (updatedStart_pos w1 (at_ raw (nextWrappingIndex index (length (vertexes raw)))) ip) as [->| ->]; [|left; exact Eb2].
      apply G. rewrite El1. apply in_or_app. right. now left.
  - assert (Hne' : wraps = true -> index <> target).
    { intros _ ->. apply in_map_iff in Hin. destruct Hin as ([k l] & Ek & Hin). cbn [fst] in Ek. subst k. apply mfind_spec in Hin; [congruence|auto]. }
    assert (Cont : forall index', (index' < length (vertexes raw))%nat -> ((if wraps then steps (length (vertexes raw)) index' target else length (vertexes raw) - index') < fuel)%nat ->
      exists valid s', offsetSliceLoop fuel ts raw wraps m s1 index' = Ok (valid, s') /\ isClosed s' = isClosed s /\ vertexes s' <> [] /\
        (valid = true -> accepted ts (pos (at_ raw index)) /\ forall v, In v (vertexes s') -> accepted ts (pos v) \/ exists u, In u (vertexes s) /\ pos v = pos u)).
    { intros index' Hi' Hf'. destruct (IH index' s1 Hi' Hf' Hne1) as (valid & s' & E & C & N & V). exists valid, s'. split; [auto|]. split; [congruence|]. split; [auto|].
      intros Hv. destruct (V Hv) as [_ V2]. split; [exact Eb|]. intros v Hin'. destruct (V2 v Hin') as [H|(u & Hu & ->)]; [now left|].
      destruct (Hp1 u Hu) as [->|H]; [left; exact Eb|right; exact H]. }
    unfold size. destruct (Nat.eqb_spec (S index) (length (vertexes raw))) as [Es|Es].
    + destruct wraps.
      * apply Cont; [lia|]. pose proof (steps_next (length (vertexes raw)) index target Hi Ht (Hne' eq_refl)) as St. unfold nextWrappingIndex in St. destruct (Nat.eqb_spec (S index) (length (vertexes raw))); lia.
      * exists true, s1. split; [reflexivity|]. split; [auto|]. split; [auto|]. intros _. split; [exact Eb|]. intros v Hv. destruct (Hp1 v Hv) as [->|H]; [left; exact Eb|right; exact H].
    + apply Cont; [lia|]. destruct wraps; [|lia].
      pose proof (steps_next (length (vertexes raw)) index target Hi Ht (Hne' eq_refl)) as St. unfold nextWrappingIndex in St. destruct (Nat.eqb_spec (S index) (length (vertexes raw))); lia.
Qed.

Lemma mid_ok ts n k endV : okTests ts -> (k < n)%nat -> forall rest prev result,
  exists new, midOffsetSlices ts k endV prev rest result = Ok (result ++ new) /\ List.Forall (goodOffsetSlice ts n) new /\ (length new <= length rest)%nat.
Proof.
  intros [Hpt Hho] Hk. induction rest as [|p rest IH]; intros prev result.
  - exists []. cbn [midOffsetSlices]. rewrite app_nil_r. auto.
  - cbn [midOffsetSlices]. set (a := updatedStart _). set (b := splitVertex _).
    assert (exists keep, (if fuzzyEqual (pos a) (pos b) realPrecision then Ok false
         else
           let! ok1 := ptValid ts (pos a) in
           if negb ok1 then Ok false
           else
             let! ok2 := ptValid ts (pos b) in
             if negb ok2 then Ok false
             else
               let! ok3 := ptValid ts (segMidpoint a b) in
               if negb ok3 then Ok false
               else let! h := hitsOrig ts a b in Ok (negb h)) = Ok keep /\ (keep = true -> accepted ts (pos a) /\ accepted ts (pos b))) as (keep & -> & Hkeep).
    { destruct (fuzzyEqual (pos a) (pos b) realPrecision); [exists false; split; [reflexivity|discriminate]|].
      destruct (Hpt (pos a)) as (b1 & E1). rewrite E1. cbn [bind]. destruct b1; cbn [negb]; [|exists false; split; [reflexivity|discriminate]].
      destruct (Hpt (pos b)) as (b2 & E2). rewrite E2. cbn [bind]. destruct b2; cbn [negb]; [|exists false; split; [reflexivity|discriminate]].
      destruct (Hpt (segMidpoint a b)) as (b3 & E3). rewrite E3. cbn [bind]. destruct b3; cbn [negb]; [|exists false; split; [reflexivity|discriminate]].
      destruct (Hho a b) as (b4 & E4). rewrite E4. cbn [bind]. exists (negb b4). split; [reflexivity|]. intros _. split; auto. }
    cbn [bind]. destruct keep.
    + destruct (Hkeep eq_refl) as [Ha Hb]. destruct (IH b (result ++ [mkOSl (Some k) (mkPline false [a; b])])) as (new & -> & Hnew & Hlen).
      exists (mkOSl (Some k) (mkPline false [a; b]) :: new). rewrite <- app_assoc. split; [reflexivity|]. split; [|cbn; lia]. constructor; [|auto].
      unfold goodOffsetSlice. cbn [slPline isClosed vertexes intrStartIndex length]. split; [auto|]. split; [lia|]. split; [exists k; auto|]. intros v [<-|[<-|[]]]; auto.
    + destruct (IH b result) as (new & -> & Hnew & Hlen). exists new. split; [reflexivity|]. split; [auto|cbn; lia].
Qed.

(** one entry of the table: a bounded number of good slices is added *)
Lemma sliceOne_ok ts raw wraps sc m kv result : okTests ts -> okTable m (length (vertexes raw)) -> In kv m ->
  exists new, offsetSliceOne ts raw wraps sc m result kv = Ok (result ++ new) /\ List.Forall (goodOffsetSlice ts (length (vertexes raw))) new /\ (length new <= length (snd kv))%nat.
Proof.
  intros Hts Hm Hin. destruct kv as [k l]. destruct (proj2 Hm k l Hin) as [Hk Hl]. cbn [snd].
  unfold offsetSliceOne, size. rewrite vget_at by auto. cbn [bind]. rewrite vget_at by now apply next_lt. cbn [bind].
  destruct l as [|p0 rest]; [contradiction|].
  set (sv := at_ raw k). set (ev := at_ raw (nextWrappingIndex k (length (vertexes raw)))).
  assert (exists new, (if negb (length (p0 :: rest) =? 1)%nat then midOffsetSlices ts k ev (splitVertex (splitAtPoint sv ev p0)) rest result else Ok result) = Ok (result ++ new) /\
    List.Forall (goodOffsetSlice ts (length (vertexes raw))) new /\ (length new <= length rest)%nat) as (new & -> & Hnew & Hlen).
  { destruct (negb _); [now apply mid_ok|]. exists []. rewrite app_nil_r. split; [reflexivity|]. split; [auto|cbn; lia]. }
  cbn [bind]. set (lp := last rest p0). destruct (proj1 Hts lp) as (b & Eb). rewrite Eb. cbn [bind]. destruct b; cbn [negb].
  2:{ exists new. split; [reflexivity|]. split; [auto|cbn; lia]. }
  set (st := splitVertex (splitAtPoint sv ev lp)).
  destruct (loop_ok ts raw m wraps k Hts Hm Hk ltac:(apply in_map_iff; exists (k, p0 :: rest); auto) (S (length (vertexes raw))) (nextWrappingIndex k (length (vertexes raw))) (mkPline false [st])) as (valid & s' & E & Hc & Hne & Hv).
  { now apply next_lt. }
  { destruct wraps; [|lia]. pose proof (steps_lt (length (vertexes raw)) (nextWrappingIndex k (length (vertexes raw))) k). specialize (H ltac:(now apply next_lt) Hk). lia. }
  { discriminate. }
  rewrite E. cbn [bind]. cbn [isClosed] in Hc.
  assert (exists v2, (if (valid && (1 <? length (vertexes s'))%nat) && sc
     then let! a := vget s' 0 in let! b := lastVertex s' in Ok (if fuzzyEqual (pos a) (pos b) realThreshold then tltb (tlit 1 100) (getPathLength s') else true)
     else Ok (valid && (1 <? length (vertexes s'))%nat)) = Ok v2 /\ (v2 = true -> valid = true /\ (1 < length (vertexes s'))%nat)) as (v2 & -> & Hv2).
  { destruct (valid && (1 <? length (vertexes s'))%nat) eqn:Ev; cbn [andb].
    - apply andb_true_iff in Ev. destruct Ev as [-> Ev]. apply Nat.ltb_lt in Ev. destruct sc; [|eauto].
      rewrite vget_at by lia. cbn [bind]. destruct (get_last s' Hne) as (? & w & _ & -> & _). cbn [bind]. eexists. split; [reflexivity|]. intros _. split; [auto|lia].
    - exists false. split; [reflexivity|discriminate]. }
  cbn [bind]. destruct v2.
  - destruct (Hv2 eq_refl) as [-> Hgt]. destruct (Hv eq_refl) as [Hfirst Hall].
    exists (new ++ [mkOSl (Some k) s']). rewrite app_assoc. split; [reflexivity|]. split; [|rewrite app_length; cbn; lia].
    apply Forall_app. split; [auto|]. constructor; [|constructor]. unfold goodOffsetSlice. cbn [slPline intrStartIndex]. split; [auto|]. split; [lia|]. split; [exists k; auto|].
    intros v Hin'. destruct (Hall v Hin') as [H|(u & [<-|[]] & ->)]; [auto|]. unfold st. destruct (splitVertex_pos sv ev lp) as [->| ->]; [exact Eb|exact Hfirst].
  - exists new. split; [reflexivity|]. split; [auto|cbn; lia].
Qed.

Lemma slice_fold_ok ts raw wraps sc m : okTests ts -> okTable m (length (vertexes raw)) -> forall l result, (forall kv, In kv l -> In kv m) ->
  exists new, mfold (offsetSliceOne ts raw wraps sc m) l result = Ok (result ++ new) /\ List.Forall (goodOffsetSlice ts (length (vertexes raw))) new /\ (length new <= length (concat (map snd l)))%nat.
Proof.
  intros Hts Hm. induction l as [|kv l IH]; intros result Hl.
  - exists []. cbn [mfold]. rewrite app_nil_r. auto.
  - cbn [mfold]. destruct (sliceOne_ok ts raw wraps sc m kv result Hts Hm (Hl kv (or_introl eq_refl))) as (n1 & -> & H1 & L1). cbn [bind].
    destruct (IH (result ++ n1) (fun kv H => Hl kv (or_intror H))) as (n2 & -> & H2 & L2). exists (n1 ++ n2). rewrite app_assoc. split; [reflexivity|].
    split; [now apply Forall_app|]. cbn [map concat]. rewrite !app_length. lia.
Qed.

(** the first slice of an open polyline *)
Lemma first_ok ts raw m : okTests ts -> NoDup (map fst m) -> (forall k l, In (k, l) m -> (k + 1 < length (vertexes raw))%nat /\ l <> []) ->
  forall fuel index s, (exists k, In k (map fst m) /\ (index <= k)%nat /\ (k - index < fuel)%nat) -> (index = 0%nat \/ vertexes s <> []) -> isClosed s = false ->
  exists new, firstSliceLoop fuel ts raw m s index = Ok new /\
    (new = [] \/ exists sl, new = [mkOSl (Some 0%nat) sl] /\ isClosed sl = false /\ vertexes sl <> []).
Proof.
  intros [Hpt Hho] Nm Hm. induction fuel as [|fuel IH]; intros index s (k & Hk & Hik & Hf) Hs Hc; [lia|].
  cbn [firstSliceLoop].
  assert (Hkn : (k + 1 < length (vertexes raw))%nat) by (apply in_map_iff in Hk; destruct Hk as ([k' l] & <- & Hin); apply Hm in Hin; apply Hin).
  assert (Add : forall (s0 : polyline) v, isClosed s0 = false -> isClosed (addOrReplaceIfSamePos s0 v) = false /\ vertexes (addOrReplaceIfSamePos s0 v) <> []).
  { intros s0 v H. unfold addOrReplaceIfSamePos. destruct (rev (vertexes s0)) as [|x t]; [|destruct (fuzzyEqual _ _ _)]; cbn [isClosed vertexes addVertex]; (split; [exact H|]); intros E; apply app_eq_nil in E; destruct E; discriminate. }
  destruct (mfind index m) as [l|] eqn:Em.
  - apply mfind_spec in Em; [|auto]. destruct (Hm _ _ Em) as [Hi Hl]. destruct l as [|ip l]; [contradiction|]. cbn [rget nth_error bind].
    destruct (Hpt ip) as (b & Eb). rewrite Eb. cbn [bind]. destruct b; cbn [negb]; [|exists []; auto].
    rewrite !vget_at by lia. cbn [bind].
    destruct (Hpt (segMidpoint (updatedStart (splitAtPoint (at_ raw index) (at_ raw (index + 1)) ip)) (mkVtx ip t0))) as (b2 & Eb2). rewrite Eb2. cbn [bind]. destruct b2; cbn [negb]; [|exists []; auto].
    destruct (Hho (updatedStart (splitAtPoint (at_ raw index) (at_ raw (index + 1)) ip)) (mkVtx ip t0)) as (h & Eh). rewrite Eh. cbn [bind]. destruct h; [exists []; auto|].
    eexists. split; [reflexivity|]. right. eexists. split; [reflexivity|]. destruct (Add s (updatedStart (splitAtPoint (at_ raw index) (at_ raw (index + 1)) ip)) Hc) as [Hc1 _].
    apply (Add _ (mkVtx ip t0) Hc1).
  - assert (index <> k). { intros ->. apply in_map_iff in Hk. destruct Hk as ([k' l] & E & Hin). cbn [fst] in E. subst k'. apply mfind_spec in Hin; [congruence|auto]. }
    rewrite vget_at by lia. cbn [bind]. destruct (Hpt (pos (at_ raw index))) as (b & Eb). rewrite Eb. cbn [bind]. destruct b; cbn [negb]; [|exists []; auto].
    assert (exists h, (if negb (index =? 0)%nat then let! lv := lastVertex s in hitsOrig ts lv (at_ raw index) else Ok false) = Ok h) as (h & ->).
    { destruct (Nat.eqb_spec index 0); cbn [negb]; [eauto|]. destruct Hs as [Hs|Hs]; [contradiction|]. destruct (get_last s Hs) as (? & w & _ & -> & _). cbn [bind]. apply Hho. }
    cbn [bind]. destruct h; [exists []; auto|]. destruct (Add s (at_ raw index) Hc) as [Hc1 Hn1].
    apply IH; auto. exists k. split; [auto|]. lia.
Qed.

(** ** Building the tables *)
Lemma okTable_mpush m n k v : okTable m n -> (k < n)%nat -> okTable (mpush k v m) n /\ length (concat (map snd (mpush k v m))) = S (length (concat (map snd m))).
Proof.
  intros [Nm Hm] Hk. destruct (mpush_spec m k v Nm) as [N S]. split.
  - split; [exact N|]. intros k' l Hin. apply S in Hin. destruct Hin as [[_ H]|[-> [(l0 & _ & ->)|[_ ->]]]]; [now apply Hm| |].
    + split; [auto|]. intros E; apply app_eq_nil in E; destruct E; discriminate.
    + split; [auto|discriminate].
  - clear. induction m as [|[k0 l0] m IH]; [reflexivity|]. cbn [mpush]. destruct (k =? k0)%nat; cbn [map snd concat]; rewrite !app_length; cbn [length]; lia.
Qed.

Lemma mpushSorted_spec {V} (m : list (nat * list V)) k v k' l : In (k', l) (mpushSorted k v m) ->
  In (k', l) m \/ (k' = k /\ ((exists l0, In (k, l0) m /\ l = l0 ++ [v]) \/ l = [v])).
Proof.
  induction m as [|[k0 l0] m IH]; cbn [mpushSorted].
  - intros [E|[]]. injection E as <- <-. right. auto.
  - destruct (Nat.eqb_spec k k0) as [<-|Hne].
    + intros [E|H]; [injection E as <- <-|left; now right]. right. split; [auto|]. left. exists l0. split; [now left|auto].
    + destruct (k <? k0)%nat.
      * intros [E|H]; [injection E as <- <-; right; auto|left; exact H].
      * intros [E|H]; [injection E as <- <-; left; now left|]. destruct (IH H) as [H'|[-> [(l1 & H1 & ->)|H1]]]; [left; now right| |]; right; (split; [auto|]); [left|right; auto]. exists l1. split; [now right|auto].
Qed.

Lemma mpushSorted_keys {V} (m : list (nat * list V)) k v x : In x (map fst (mpushSorted k v m)) <-> x = k \/ In x (map fst m).
Proof.
  induction m as [|[k0 l0] m IH]; cbn [mpushSorted map fst In]; [intuition congruence|].
  destruct (Nat.eqb_spec k k0) as [<-|Hne]; cbn [map fst In]; [intuition congruence|]. destruct (k <? k0)%nat; cbn [map fst In]; [intuition congruence|]. rewrite IH. intuition congruence.
Qed.

Definition sortedTable (m : vlookup) (n : nat) : Prop := StronglySorted lt (map fst m) /\ forall k l, In (k, l) m -> (k < n)%nat /\ l <> [].

Lemma sorted_okTable m n : sortedTable m n -> okTable m n.
Proof.
  intros [S H]. split; [|auto]. clear H. induction S as [|k l S IH F]; constructor; auto. intros Hin. rewrite List.Forall_forall in F. specialize (F k Hin). lia.
Qed.

Lemma sortedTable_push m n k v : sortedTable m n -> (k < n)%nat ->
  sortedTable (mpushSorted k v m) n /\ length (concat (map snd (mpushSorted k v m))) = S (length (concat (map snd m))).
Proof.
  intros [Nm Hm] Hk. split; [split|].
  - clear Hm. induction m as [|[k0 l0] m IH]; cbn [mpushSorted]; [repeat constructor|].
    cbn [map fst] in Nm. inversion Nm as [|? ? N' F]. subst. destruct (Nat.eqb_spec k k0) as [<-|Hne]; [exact Nm|].
    destruct (Nat.ltb_spec k k0) as [Hlt|Hge]; cbn [map fst].
    + constructor; [exact Nm|]. constructor; [auto|]. eapply List.Forall_impl; [|exact F]. cbv beta. intros. lia.
    + constructor; [now apply IH|]. apply List.Forall_forall. intros x Hx. apply mpushSorted_keys in Hx. rewrite List.Forall_forall in F. destruct Hx as [->|Hx]; [lia|auto].
  - intros k' l Hin. apply mpushSorted_spec in Hin. destruct Hin as [H|[-> [(l0 & _ & ->)| ->]]]; [now apply Hm| |].
    + split; [auto|]. intros E; apply app_eq_nil in E; destruct E; discriminate.
    + split; [auto|discriminate].
  - clear. induction m as [|[k0 l0] m IH]; [reflexivity|]. cbn [mpushSorted]. destruct (k =? k0)%nat; [|destruct (k <? k0)%nat]; cbn [map snd concat]; rewrite ?app_length; cbn [length map snd concat]; rewrite ?app_length; lia.
Qed.

Lemma mmap_keys (f : nat * list vec -> res (nat * list vec)) m : (forall kv, In kv m -> exists l, f kv = Ok (fst kv, l) /\ Permutation l (snd kv)) ->
  exists m', mmap f m = Ok m' /\ map fst m' = map fst m /\ (forall k l, In (k, l) m' -> exists l0, In (k, l0) m /\ Permutation l l0) /\ length (concat (map snd m')) = length (concat (map snd m)).
Proof.
  induction m as [|kv m IH]; intros H; [exists []; repeat split; auto; intros k l []|].
  cbn [mmap]. destruct (H kv (or_introl eq_refl)) as (l & -> & P). cbn [bind]. destruct IH as (m' & -> & K & I & L); [intros; apply H; now right|]. cbn [bind].
  exists ((fst kv, l) :: m'). split; [reflexivity|]. cbn [map fst snd concat]. split; [now rewrite K|]. split; [|rewrite !app_length, L, (Permutation_length P); reflexivity].
  intros k l' [E|Hin]; [injection E as <- <-; exists (snd kv); split; [left; now destruct kv|exact P]|]. destruct (I k l' Hin) as (l0 & Hl0 & P0). exists l0. split; [now right|auto].
Qed.

Lemma sortV_ok raw m : (forall k l, In (k, l) m -> (k < length (vertexes raw))%nat /\ l <> []) ->
  exists m', sortVLookup raw m = Ok m' /\ map fst m' = map fst m /\ (forall k l, In (k, l) m' -> (exists l0, In (k, l0) m /\ Permutation l l0) /\ (k < length (vertexes raw))%nat /\ l <> []) /\ length (concat (map snd m')) = length (concat (map snd m)).
Proof.
  intros H. unfold sortVLookup. destruct (mmap_keys (fun '(k, l) => let! v := vget raw k in Ok (k, std_sort (fun a b => tltb (distSquared a (pos v)) (distSquared b (pos v))) l)) m) as (m' & E & K & I & L).
  - intros [k l] Hin. destruct (H k l Hin) as [Hk _]. rewrite vget_at by auto. cbn [bind fst snd]. eexists. split; [reflexivity|]. apply sort_perm.
  - exists m'. split; [exact E|]. split; [auto|]. split; [|auto]. intros k l Hin. destruct (I k l Hin) as (l0 & H0 & P). destruct (H k l0 H0) as [Hk Hl]. split; [eauto|]. split; [auto|]. intros ->. apply Permutation_nil in P. contradiction.
Qed.
End OffsetSlices.
