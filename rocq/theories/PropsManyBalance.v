(** * Winding numbers of a boundary made of parts of many closed polylines (used by C66) *)
From Coq Require Import ZArith Reals Lra Lia Psatz List Bool Arith Permutation Classical.
From Coquelicot Require Import Coquelicot.
From Verif Require Import Base Num MathUtils PlineSegment SpatialIndex Polyline RGeom Spec PropsMath ArcGeom Polar PropsPolyline Turning PropsWinding PropsRegion PropsPieces PropsBoolOps PropsCover PropsEuler PropsBalance.
Import ListNotations.
Open Scope R_scope.

Definition sumZ (l : list Z) : Z := fold_right Z.add 0%Z l.
Definition prodZ (l : list Z) : Z := fold_right Z.mul 1%Z l.

Lemma sumZ_cons x l : sumZ (x :: l) = (x + sumZ l)%Z.
Proof. reflexivity. Qed.
Lemma prodZ_cons x l : prodZ (x :: l) = (x * prodZ l)%Z.
Proof. reflexivity. Qed.
Lemma sumZ_app l l' : sumZ (l ++ l') = (sumZ l + sumZ l')%Z.
Proof. induction l as [|x l IH]; [reflexivity|]. cbn [app sumZ fold_right] in *. unfold sumZ in *. rewrite IH. lia. Qed.
Lemma prodZ_app l l' : prodZ (l ++ l') = (prodZ l * prodZ l')%Z.
Proof. induction l as [|x l IH]; [cbn [app]; unfold prodZ at 2; cbn [fold_right]; lia|]. cbn [app]. unfold prodZ in *. cbn [fold_right]. rewrite IH. ring. Qed.
Lemma sumZ_ext {X} (f g : X -> Z) l : (forall x, In x l -> f x = g x) -> sumZ (map f l) = sumZ (map g l).
Proof. intros H. f_equal. now apply map_ext_in. Qed.
Lemma prodZ_ext {X} (f g : X -> Z) l : (forall x, In x l -> f x = g x) -> prodZ (map f l) = prodZ (map g l).
Proof. intros H. f_equal. now apply map_ext_in. Qed.
Lemma prodZ_01 l : (forall x, In x l -> x = 0%Z \/ x = 1%Z) -> prodZ l = 0%Z \/ prodZ l = 1%Z.
Proof.
  induction l as [|x l IH]; intros H; [now right|]. unfold prodZ in *. cbn [fold_right]. destruct IH as [->| ->]; [intros; apply H; now right|left; lia|]. destruct (H x (or_introl eq_refl)) as [->| ->]; lia.
Qed.
Lemma prodZ_1 l : (forall x, In x l -> x = 0%Z \/ x = 1%Z) -> (prodZ l = 1%Z <-> forall x, In x l -> x = 1%Z).
Proof.
  induction l as [|x l IH]; intros H; [split; [intros _ x []|reflexivity]|]. assert (H' : forall y, In y l -> y = 0%Z \/ y = 1%Z) by (intros; apply H; now right). specialize (IH H'). pose proof (prodZ_01 l H') as P.
  change (prodZ (x :: l)) with (x * prodZ l)%Z. split.
  - intros E. destruct (H x (or_introl eq_refl)) as [->| ->]; [lia|]. assert (prodZ l = 1%Z) as E1 by lia. intros y [<-|Hy]; [reflexivity|]. now apply IH.
  - intros A. rewrite (A x (or_introl eq_refl)), (proj2 IH); [reflexivity|]. intros; apply A; now right.
Qed.

(** one index singled out of a list *)
Lemma pick_out (i n : nat) : (i < n)%nat -> seq 0 n = seq 0 i ++ i :: seq (S i) (n - S i).
Proof. intros H. replace n with (i + S (n - S i))%nat at 1 by lia. rewrite seq_app. reflexivity. Qed.

Section Many.
Context (n m : nat) (pl : nat -> polyline) (par : nat -> nat) (c : nat -> Z) (K N : nat -> list (vec * R * vec)) (X : list vec).

(** winding number, 0 on the path itself *)
Definition wn (i : nat) (q : vec) : Z := if pdec (onPath (pl i) q) then 0%Z else getWindingNumber (pl i) q.
Definition fac (k : nat) (q : vec) : Z := (c k + sumZ (map (fun i => if Nat.eqb (par i) k then wn i q else 0%Z) (seq 0 n)))%Z.
Definition kap (i : nat) (q : vec) : Z := prodZ (map (fun k => if Nat.eqb k (par i) then 1%Z else fac k q) (seq 0 m)).
Definition Psi (q : vec) : Z := prodZ (map (fun k => fac k q) (seq 0 m)).
(** on the path of [i] only *)
Definition lone (i : nat) (q : vec) : Prop := forall j, (j < n)%nat -> j <> i -> ~ onPath (pl j) q.
Definition shared (q : vec) : Prop := exists i j, (i < n)%nat /\ (j < n)%nat /\ i <> j /\ onPath (pl i) q /\ onPath (pl j) q.

Hypothesis (Hpar : forall i, (i < n)%nat -> (par i < m)%nat) (Hb : forall i, (i < n)%nat -> smallBulges (pl i)).
Hypothesis F0 : forall k q, (k < m)%nat -> (forall i, (i < n)%nat -> par i = k -> ~ onPath (pl i) q) -> fac k q = 0%Z \/ fac k q = 1%Z.
Hypothesis F1 : forall i q, (i < n)%nat -> ~ onPath (pl i) q -> turnT q (K i) + turnT q (N i) = 2 * PI * IZR (getWindingNumber (pl i) q).
Hypothesis OK : forall i, (i < n)%nat -> okT (K i ++ N i).
Hypothesis F2 : forall i e q, (i < n)%nat -> In e (K i ++ N i) -> on3 e q -> onPath (pl i) q.
Hypothesis F3 : forall i e q, (i < n)%nat -> In e (K i) -> on3 e q -> lone i q -> kap i q = 1%Z.
Hypothesis F3' : forall i e q, (i < n)%nat -> In e (N i) -> on3 e q -> lone i q -> kap i q = 0%Z.
Hypothesis F4 : forall i x, (i < n)%nat -> netT (K i ++ N i) x = 0.
Hypothesis HX : forall q, shared q -> In q X.

(** the trace used near the point q: a kept path through q is replaced by the reverse of its dropped rest *)
Definition sel (i : nat) (q : vec) : list (vec * R * vec) := if pdec (onPath (pl i) q) then (if Z.eqb (kap i q) 1 then map rev3 (N i) else K i) else K i.
Definition at_trace (q : vec) : list (vec * R * vec) := flat_map (fun i => sel i q) (seq 0 n).
Definition allK : list (vec * R * vec) := flat_map K (seq 0 n).
Definition defectM (q : vec) : R := turnT q (at_trace q) - 2 * PI * IZR (Psi q).
Definition endsM : list vec := flat_map (fun e : vec * R * vec => [fst (fst e); snd e]) (flat_map (fun i => K i ++ N i) (seq 0 n)).

Lemma Psi_split i q : (i < n)%nat -> Psi q = (fac (par i) q * kap i q)%Z.
Proof.
  intros Hi. specialize (Hpar i Hi). unfold Psi, kap. rewrite (pick_out (par i) m Hpar), !map_app, !prodZ_app. cbn [map]. rewrite Nat.eqb_refl, !prodZ_cons.
  assert (E : forall l, ~ In (par i) l -> map (fun k => if Nat.eqb k (par i) then 1%Z else fac k q) l = map (fun k => fac k q) l).
  { intros l Hl. apply map_ext_in. intros k Hk. destruct (Nat.eqb_spec k (par i)) as [->|]; [contradiction|reflexivity]. }
  rewrite (E (seq 0 (par i))), (E (seq (S (par i)) (m - S (par i)))) by (rewrite in_seq; lia). ring.
Qed.

Lemma okK i : (i < n)%nat -> okT (K i) /\ okT (N i).
Proof. intros Hi. split; intros e He; apply (OK i Hi), in_or_app; tauto. Qed.

Lemma offI i q : (i < n)%nat -> ~ onPath (pl i) q -> offT (K i) q /\ offT (N i) q.
Proof. intros Hi H. split; intros e He O; apply H, (F2 i e q Hi); auto; apply in_or_app; tauto. Qed.

Lemma sel_ok i q : (i < n)%nat -> okT (sel i q) /\ (forall x, netT (sel i q) x = netT (K i) x) /\ forall e, In e (sel i q) -> In (fst (fst e)) endsM /\ In (snd e) endsM.
Proof.
  intros Hi. destruct (okK i Hi) as [K1 K2].
  assert (HL : forall e, In e (K i ++ N i) -> In (fst (fst e)) endsM /\ In (snd e) endsM).
  { intros e He. unfold endsM. rewrite !in_flat_map. split; exists e; (split; [apply in_flat_map; exists i; split; [apply in_seq; lia|auto]|cbn; tauto]). }
  assert (A1 : okT (K i) /\ (forall x, netT (K i) x = netT (K i) x) /\ forall e, In e (K i) -> In (fst (fst e)) endsM /\ In (snd e) endsM).
  { split; [auto|]. split; [reflexivity|]. intros e He. apply HL, in_or_app. now left. }
  unfold sel. destruct (pdec _); [|exact A1]. destruct (Z.eqb _ 1); [|exact A1]. split; [now apply okT_map|]. split.
  - intros x. rewrite netT_rev. pose proof (F4 i x Hi) as F. rewrite netT_app in F. lra.
  - intros e He. apply in_map_iff in He. destruct He as ([[a b] d] & <- & He). destruct (HL (a, b, d)) as [H1 H2]; [apply in_or_app; now right|]. cbn [rev3 fst snd] in *. auto.
Qed.

Lemma trace_ok q : okT (at_trace q) /\ (forall x, netT (at_trace q) x = netT allK x) /\ forall e, In e (at_trace q) -> In (fst (fst e)) endsM /\ In (snd e) endsM.
Proof.
  unfold at_trace, allK. assert (G : forall l, (forall i, In i l -> (i < n)%nat) -> okT (flat_map (fun i => sel i q) l) /\ (forall x, netT (flat_map (fun i => sel i q) l) x = netT (flat_map K l) x) /\
    forall e, In e (flat_map (fun i => sel i q) l) -> In (fst (fst e)) endsM /\ In (snd e) endsM).
  { induction l as [|i l IH]; intros Hl; [split; [intros e []|split; [reflexivity|intros e []]]|]. destruct IH as (A & B & C); [intros; apply Hl; now right|]. destruct (sel_ok i q (Hl i (or_introl eq_refl))) as (A' & B' & C').
    cbn [flat_map]. split; [now apply okT_app|]. split; [intros x; now rewrite !netT_app, B, B'|]. intros e He. apply in_app_or in He. destruct He; auto. }
  apply G. intros i Hi. apply in_seq in Hi. lia.
Qed.

Lemma wn_near i q0 : (i < n)%nat -> ~ onPath (pl i) q0 -> exists d, 0 < d /\ forall q, dist q0 q < d -> ~ onPath (pl i) q /\ wn i q = wn i q0.
Proof.
  intros Hi H. destruct (C47_locally_constant (pl i) q0 (Hb i Hi) H) as (d & Hd & Hq). exists d. split; [auto|]. intros q Hqq. destruct (Hq q Hqq) as [A B]. split; [auto|]. unfold wn. destruct (pdec _); [contradiction|]. destruct (pdec _); [contradiction|]. exact B.
Qed.

(** all paths but [i0] keep away from a neighbourhood of a point on [i0] alone *)
Lemma others_near (P : nat -> Prop) q0 : (forall j, (j < n)%nat -> P j -> ~ onPath (pl j) q0) -> exists d, 0 < d /\ forall q j, dist q0 q < d -> (j < n)%nat -> P j -> ~ onPath (pl j) q /\ wn j q = wn j q0.
Proof.
  intros H. assert (G : forall l, (forall j, In j l -> (j < n)%nat) -> exists d, 0 < d /\ forall q j, dist q0 q < d -> In j l -> P j -> ~ onPath (pl j) q /\ wn j q = wn j q0).
  { induction l as [|i l IH]; intros Hl; [exists 1; split; [lra|intros q j _ []]|]. destruct IH as (d & Hd & Hq); [intros; apply Hl; now right|]. destruct (pdec (P i)) as [Hp|Hp].
    - destruct (wn_near i q0 (Hl i (or_introl eq_refl))) as (d' & Hd' & Hq'); [apply H; auto; apply Hl; now left|]. exists (Rmin d d'). split; [now apply Rmin_glb_lt|]. intros q j Hdq [<-|Hj] Pj.
      + apply Hq'. eapply Rlt_le_trans; [exact Hdq|apply Rmin_r]. + apply Hq; auto. eapply Rlt_le_trans; [exact Hdq|apply Rmin_l].
    - exists d. split; [auto|]. intros q j Hdq [<-|Hj] Pj; [contradiction|auto]. }
  destruct (G (seq 0 n)) as (d & Hd & Hq); [intros j Hj; apply in_seq in Hj; lia|]. exists d. split; [auto|]. intros q j Hdq Hj. apply Hq; auto. apply in_seq. lia.
Qed.

Lemma fac_same k q q0 : (forall j, (j < n)%nat -> par j = k -> wn j q = wn j q0) -> fac k q = fac k q0.
Proof. intros H. unfold fac. f_equal. apply sumZ_ext. intros j Hj. apply in_seq in Hj. destruct (Nat.eqb_spec (par j) k); [apply H; auto; lia|reflexivity]. Qed.

Lemma fac_one i q q0 : (i < n)%nat -> (forall j, (j < n)%nat -> j <> i -> wn j q = wn j q0) -> fac (par i) q = (fac (par i) q0 + (wn i q - wn i q0))%Z.
Proof.
  intros Hi H. unfold fac. rewrite (pick_out i n Hi), !map_app, !sumZ_app. cbn [map]. rewrite Nat.eqb_refl, !sumZ_cons.
  assert (E : forall l, (forall j, In j l -> (j < n)%nat /\ j <> i) -> sumZ (map (fun j => if Nat.eqb (par j) (par i) then wn j q else 0%Z) l) = sumZ (map (fun j => if Nat.eqb (par j) (par i) then wn j q0 else 0%Z) l)).
  { intros l Hl. apply sumZ_ext. intros j Hj. destruct (Hl j Hj). rewrite H; auto. }
  rewrite (E (seq 0 i)), (E (seq (S i) (n - S i))) by (intros j Hj; apply in_seq in Hj; lia). lia.
Qed.

Lemma kap_same i q q0 : (forall j, (j < n)%nat -> j <> i -> wn j q = wn j q0) -> kap i q = kap i q0.
Proof.
  intros H. unfold kap. apply prodZ_ext. intros k _. destruct (Nat.eqb_spec k (par i)) as [->|Hk]; [reflexivity|]. apply fac_same. intros j Hj Ej. apply H; auto. intros ->. auto.
Qed.

Lemma kap_01 i q : (i < n)%nat -> lone i q -> kap i q = 0%Z \/ kap i q = 1%Z.
Proof.
  intros Hi H. unfold kap. apply prodZ_01. intros x Hx. apply in_map_iff in Hx. destruct Hx as (k & <- & Hk). apply in_seq in Hk. destruct (Nat.eqb_spec k (par i)); [now right|]. apply F0; [lia|]. intros j Hj Ej. apply H; [auto|]. intros ->. auto.
Qed.

Lemma at_lone i q : (i < n)%nat -> lone i q -> at_trace q = flat_map K (seq 0 i) ++ sel i q ++ flat_map K (seq (S i) (n - S i)).
Proof.
  intros Hi H. unfold at_trace. rewrite (pick_out i n Hi) at 1. rewrite flat_map_app. cbn [flat_map].
  assert (E : forall l, (forall j, In j l -> (j < n)%nat /\ j <> i) -> flat_map (fun j => sel j q) l = flat_map K l).
  { induction l as [|j l IH]; intros Hl; [reflexivity|]. cbn [flat_map]. rewrite IH by (intros; apply Hl; now right). f_equal. destruct (Hl j (or_introl eq_refl)) as [A B]. unfold sel. destruct (pdec _) as [O|_]; [destruct (H j A B O)|reflexivity]. }
  rewrite (E (seq 0 i)), (E (seq (S i) (n - S i))) by (intros j Hj; apply in_seq in Hj; lia). reflexivity.
Qed.

Lemma at_none q : (forall i, (i < n)%nat -> ~ onPath (pl i) q) -> at_trace q = allK.
Proof.
  intros H. unfold at_trace, allK. assert (E : forall l, (forall j, In j l -> (j < n)%nat) -> flat_map (fun j => sel j q) l = flat_map K l).
  { induction l as [|j l IH]; intros Hl; [reflexivity|]. cbn [flat_map]. rewrite IH by (intros; apply Hl; now right). f_equal. unfold sel. destruct (pdec _) as [O|_]; [destruct (H j (Hl j (or_introl eq_refl)) O)|reflexivity]. }
  apply E. intros j Hj. apply in_seq in Hj. lia.
Qed.

Lemma allK_off q (l : list nat) : (forall j, In j l -> (j < n)%nat /\ ~ onPath (pl j) q) -> offT (flat_map K l) q.
Proof. intros H e He. apply in_flat_map in He. destruct He as (j & Hj & He). destruct (H j Hj) as [A B]. exact (proj1 (offI j q A B) e He). Qed.

(** around every point that is on at most one path, the defect is the turning of one fixed trace that avoids the point *)
Lemma defectM_local q0 : ~ shared q0 -> exists z d, offT (at_trace q0) q0 /\ 0 < d /\ forall q, dist q0 q < d -> defectM q = turnT q (at_trace q0) - 2 * PI * IZR z.
Proof.
  intros NS. destruct (pdec (exists i, (i < n)%nat /\ onPath (pl i) q0)) as [(i & Hi & O)|NO].
  - assert (H0 : lone i q0) by (intros j Hj Hne Oj; apply NS; exists i, j; auto).
    destruct (others_near (fun j => j <> i) q0) as (d & Hd & Hq); [exact H0|].
    assert (Hlone : forall q, dist q0 q < d -> lone i q) by (intros q Hdq j Hj Hne; apply (Hq q j Hdq Hj Hne)).
    assert (Hk : forall q, dist q0 q < d -> kap i q = kap i q0) by (intros q Hdq; apply kap_same; intros j Hj Hne; apply (Hq q j Hdq Hj Hne)).
    assert (Hf : forall q, dist q0 q < d -> fac (par i) q = (fac (par i) q0 + (wn i q - wn i q0))%Z) by (intros q Hdq; apply fac_one; auto; intros j Hj Hne; apply (Hq q j Hdq Hj Hne)).
    assert (W0 : wn i q0 = 0%Z) by (unfold wn; destruct (pdec _); [reflexivity|contradiction]).
    exists (fac (par i) q0 * kap i q0)%Z, d. split; [|split; [auto|]].
    + rewrite (at_lone i q0 Hi H0). apply offT_app; [apply allK_off; intros j Hj; apply in_seq in Hj; split; [lia|apply H0; lia]|]. apply offT_app; [|apply allK_off; intros j Hj; apply in_seq in Hj; split; [lia|apply H0; lia]].
      unfold sel. destruct (pdec _) as [_|]; [|contradiction]. destruct (Z.eqb_spec (kap i q0) 1) as [E1|E1].
      * apply offT_map. intros e He Oe. pose proof (F3' i e q0 Hi He Oe H0). lia.
      * intros e He Oe. apply E1, (F3 i e q0 Hi He Oe H0).
    + intros q Hdq. unfold defectM. rewrite (Psi_split i q Hi), (Hk q Hdq), (Hf q Hdq), W0, (at_lone i q0 Hi H0), (at_lone i q Hi (Hlone q Hdq)), !turnT_app.
      assert (S0 : sel i q0 = if Z.eqb (kap i q0) 1 then map rev3 (N i) else K i) by (unfold sel; destruct (pdec _); [reflexivity|contradiction]).
      unfold sel. rewrite (Hk q Hdq). fold (sel i q0). rewrite S0. unfold wn. destruct (pdec (onPath (pl i) q)) as [Oq|Nq].
      * rewrite Z.sub_0_r, Z.add_0_r. reflexivity.
      * rewrite Z.sub_0_r. destruct (Z.eqb_spec (kap i q0) 1) as [E1|E1].
        -- rewrite E1, !Z.mul_1_r. destruct (okK i Hi) as [K1 K2]. destruct (offI i q Hi Nq) as [O1 O2]. rewrite (turnT_rev q (N i) K2 O2). pose proof (F1 i q Hi Nq) as F. rewrite plus_IZR. lra.
        -- destruct (kap_01 i q0 Hi H0) as [E0|E0]; [|contradiction]. rewrite E0, !Z.mul_0_r. reflexivity.
  - assert (NO' : forall j, (j < n)%nat -> True -> ~ onPath (pl j) q0) by (intros j Hj _ Oj; apply NO; eauto). destruct (others_near (fun _ => True) q0 NO') as (d & Hd & Hq).
    exists (Psi q0), d. rewrite (at_none q0) by (intros j Hj; now apply NO'). split; [apply allK_off; intros j Hj; apply in_seq in Hj; split; [lia|apply NO'; auto; lia]|]. split; [auto|]. intros q Hdq. unfold defectM.
    rewrite (at_none q) by (intros j Hj; apply (Hq q j Hdq Hj I)). do 3 f_equal. unfold Psi. apply prodZ_ext. intros k _. apply fac_same. intros j Hj _. apply (Hq q j Hdq Hj I).
Qed.

Lemma defectM_cont q0 : ~ shared q0 -> forall e, 0 < e -> exists d, 0 < d /\ forall q, dist q0 q < d -> Rabs (defectM q - defectM q0) <= e.
Proof.
  intros NC e He. destruct (defectM_local q0 NC) as (z & d & O & Hd & H). destruct (trace_ok q0) as (K0 & _ & _). destruct (turnT_local (at_trace q0) q0 K0 O e He) as (d2 & Hd2 & H2).
  assert (E0 : dist q0 q0 = 0) by (unfold dist; replace ((vx q0 - vx q0) ^ 2 + (vy q0 - vy q0) ^ 2) with 0 by ring; apply sqrt_0).
  exists (Rmin d d2). split; [now apply Rmin_glb_lt|]. intros q Hq. rewrite (H q), (H q0); [|lra|eapply Rlt_le_trans; [exact Hq|apply Rmin_l]].
  destruct (H2 q) as [_ B2]; [eapply Rlt_le_trans; [exact Hq|apply Rmin_r]|].
  match goal with |- Rabs (?a - ?x - (?b - ?x)) <= _ => replace (a - x - (b - x)) with (a - b) by ring end. exact B2.
Qed.

Lemma defectM_cong (M : list vec) q : NoDup M -> (forall x, In x endsM -> In x M) -> ~ shared q -> congruent (- sumR (map (fun x => netT allK x * angU q x) M)) (defectM q).
Proof.
  intros Nd HM NC. destruct (defectM_local q NC) as (z & d & O & Hd & H). destruct (trace_ok q) as (K0 & N0 & HL).
  assert (E0 : dist q q = 0) by (unfold dist; replace ((vx q - vx q) ^ 2 + (vy q - vy q) ^ 2) with 0 by ring; apply sqrt_0). rewrite (H q) by lra.
  destruct (turnT_cong M (at_trace q) q Nd (fun e He => conj (HM _ (proj1 (HL e He))) (HM _ (proj2 (HL e He)))) K0 O) as (k & Ek). exists (k - z)%Z. rewrite Ek, minus_IZR.
  rewrite (sum_ext (fun x => netT allK x * angU q x) (fun x => netT (at_trace q) x * angU q x)) by (intros x _; now rewrite N0). ring.
Qed.

(** at every point as many kept parts start as end *)
Theorem many_balance x0 : netT allK x0 = 0.
Proof.
  set (L0 := filter (fun x => if veq_dec x x0 then false else true) (nodup veq_dec endsM)).
  assert (H0 : forall x, In x L0 <-> In x endsM /\ x <> x0). { intros x. unfold L0. rewrite filter_In, nodup_In. destruct (veq_dec x x0); split; intros [Q1 Q2]; split; auto; congruence. }
  assert (Nd : NoDup (x0 :: L0)). { constructor; [rewrite H0; tauto|apply NoDup_filter, NoDup_nodup]. }
  assert (HM : forall x, In x endsM -> In x (x0 :: L0)). { intros x Hx. destruct (veq_dec x x0) as [->|Ne]; [now left|right; now apply H0]. }
  destruct (clearance x0 (L0 ++ X)) as (r & Hr & Hfar).
  destruct (outside_angles x0 r (netT allK) L0 Hr) as (lam & Cl & El & Pl); [intros x Hx; apply Hfar; [apply in_or_app; now left|now apply H0 in Hx]|apply netT_int|].
  assert (NC : forall th, ~ shared (onCircle x0 r th)).
  { intros th Hs. pose proof (HX _ Hs) as Hin. pose proof (onCircle_dist x0 r th ltac:(lra)) as E. assert (Ne : onCircle x0 r th <> x0).
    { intros Q. rewrite Q in E. unfold dist in E. replace ((vx x0 - vx x0) ^ 2 + (vy x0 - vy x0) ^ 2) with 0 in E by ring. rewrite sqrt_0 in E. lra. }
    specialize (Hfar _ (in_or_app L0 X _ (or_intror Hin)) Ne). lra. }
  set (f := fun th => defectM (onCircle x0 r th) + (lam th + netT allK x0 * (th + PI))).
  assert (Cf : forall th, continuity_pt f th).
  { intros th. unfold f. apply (continuity_pt_plus (fun th => defectM (onCircle x0 r th)) (fun th => lam th + netT allK x0 * (th + PI))).
    - apply along_continuous; [| |apply defectM_cont, NC]; unfold onCircle; cbn [vx vy]; apply (ex_derive_continuous (V := R_NormedModule)); auto_derive; auto.
    - apply (continuity_pt_plus lam (fun th => netT allK x0 * (th + PI))); [apply Cl|]. apply derivable_continuous_pt. reg. }
  assert (Lf : forall th, exists k : Z, f th = 2 * PI * IZR k).
  { intros th. pose proof (defectM_cong (x0 :: L0) _ Nd HM (NC th)) as (k & Ek). cbn [map] in Ek. rewrite sumR_cons in Ek. destruct (El th) as (k2 & Ek2). destruct (netT_int allK x0) as (z & Ez).
    destruct (congruent_scal z _ _ (centre_angle x0 r th Hr)) as (k3 & Ek3). rewrite <- Ez in Ek3. exists (k + k2 + k3)%Z. unfold f. rewrite Ek, Ek2, Ek3, !plus_IZR. ring. }
  pose proof (lattice_const f 0 (2 * PI) Cf Lf) as E. unfold f in E. assert (Ec : onCircle x0 r (2 * PI) = onCircle x0 r 0) by (unfold onCircle; now rewrite cos_2PI, cos_0, sin_2PI, sin_0). rewrite Ec, Pl in E.
  pose proof PI_RGT_0. assert (netT allK x0 * (2 * PI) = 0) as Q by lra. apply Rmult_integral in Q. destruct Q; [auto|lra].
Qed.

Lemma far_all : exists B, 0 < B /\ forall q i, B < dist (mkV 0 0) q -> (i < n)%nat -> ~ onPath (pl i) q /\ wn i q = 0%Z.
Proof.
  assert (G : forall l, (forall i, In i l -> (i < n)%nat) -> exists B, 0 < B /\ forall q i, B < dist (mkV 0 0) q -> In i l -> ~ onPath (pl i) q /\ wn i q = 0%Z).
  { induction l as [|i l IH]; intros Hl; [exists 1; split; [lra|intros q i _ []]|]. destruct IH as (B & HB & H); [intros; apply Hl; now right|]. destruct (C47_far_zero (pl i) (Hb i (Hl i (or_introl eq_refl)))) as (B1 & P1 & Z1).
    exists (Rmax B B1). split; [eapply Rlt_le_trans; [exact HB|apply Rmax_l]|]. intros q j Hq [<-|Hj].
    - destruct (Z1 q) as [A W]; [eapply Rle_lt_trans; [apply Rmax_r|exact Hq]|]. split; [auto|]. unfold wn. destruct (pdec _); [contradiction|exact W].
    - apply H; auto. eapply Rle_lt_trans; [apply Rmax_l|exact Hq]. }
  destruct (G (seq 0 n)) as (B & HB & H); [intros i Hi; apply in_seq in Hi; lia|]. exists B. split; [auto|]. intros q i Hq Hi. apply H; auto. apply in_seq. lia.
Qed.

(** the turning of the kept parts around a point that is on none of them *)
Theorem many_turn q : ~ shared q -> at_trace q = allK -> turnT q allK = 2 * PI * IZR (Psi q - prodZ (map c (seq 0 m))).
Proof.
  intros HN HA.
  destruct (fresh (map (fun x => (vy x - vy q) / (vx x - vx q)) X)) as (s & Hs). set (g := fun t => mkV (vx q + t) (vy q + t * s)).
  assert (Eg : g 0 = q) by (unfold g; apply vec_eq; cbn [vx vy]; lra).
  assert (NC : forall t, ~ shared (g t)).
  { intros t Hsh. destruct (Req_dec t 0) as [->|Nt]; [rewrite Eg in Hsh; exact (HN Hsh)|]. pose proof (HX _ Hsh) as Hin. apply Hs. apply in_map_iff. exists (g t). split; [|auto]. unfold g. cbn [vx vy]. field. lra. }
  assert (Cf : forall t, continuity_pt (fun t => defectM (g t)) t).
  { intros t. apply along_continuous; [| |apply defectM_cont, NC]; unfold g; cbn [vx vy]; apply (ex_derive_continuous (V := R_NormedModule)); auto_derive; auto. }
  assert (Lf : forall t, exists k : Z, defectM (g t) = 2 * PI * IZR k).
  { intros t. destruct (defectM_cong (nodup veq_dec endsM) (g t) (NoDup_nodup _ _) (fun x Hx => proj2 (nodup_In _ _ _) Hx) (NC t)) as (k & Ek). exists k. rewrite Ek.
    rewrite (sum_zero (fun x => netT allK x * angU (g t) x)) by (intros x _; rewrite many_balance; ring). ring. }
  destruct far_all as (B1 & P1 & Z1). destruct (trace_ok q) as (K0 & _ & _). rewrite HA in K0. destruct (turnT_far allK K0 1 ltac:(lra)) as (B3 & P3 & Z3).
  set (t := Rabs (vx q) + B1 + B3 + 1).
  assert (Hfar : Rmax B1 B3 < dist (mkV 0 0) (g t)).
  { apply Rlt_le_trans with (Rabs (vx (g t))).
    - unfold g. cbn [vx]. unfold t. pose proof (Rabs_pos (vx q)). pose proof (Rle_abs (- vx q)) as Q. rewrite Rabs_Ropp in Q. rewrite Rabs_right by lra. apply Rmax_lub_lt; lra.
    - unfold dist. cbn [vx vy]. rewrite <- sqrt_Rsqr_abs. apply sqrt_le_1_alt. unfold Rsqr. pose proof (Rle_0_sqr (vy (g t))) as Q. unfold Rsqr in Q. nra. }
  assert (Z1' : forall i, (i < n)%nat -> ~ onPath (pl i) (g t) /\ wn i (g t) = 0%Z) by (intros i Hi; apply Z1; auto; eapply Rle_lt_trans; [apply Rmax_l|exact Hfar]).
  assert (Z3' : Rabs (turnT (g t) allK) <= 1) by (apply Z3; eapply Rle_lt_trans; [apply Rmax_r|exact Hfar]).
  assert (EP : Psi (g t) = prodZ (map c (seq 0 m))).
  { unfold Psi. apply prodZ_ext. intros k _. unfold fac. rewrite (sumZ_ext _ (fun _ => 0%Z)).
    - assert (E : forall l : list nat, sumZ (map (fun _ => 0%Z) l) = 0%Z) by (induction l as [|x l IH]; [reflexivity|]; unfold sumZ in *; cbn [map fold_right]; rewrite IH; reflexivity). rewrite E. lia.
    - intros i Hi. apply in_seq in Hi. destruct (Nat.eqb (par i) k); [|reflexivity]. apply Z1'. lia. }
  assert (D0 : defectM (g t) = - (2 * PI * IZR (prodZ (map c (seq 0 m))))).
  { destruct (Lf t) as (k & Ek). assert (E : defectM (g t) = turnT (g t) allK - 2 * PI * IZR (prodZ (map c (seq 0 m)))).
    { unfold defectM. rewrite (at_none (g t)) by (intros i Hi; apply (Z1' i Hi)). now rewrite EP. }
    rewrite E in *. assert (Ez : turnT (g t) allK = 2 * PI * IZR (k + prodZ (map c (seq 0 m)))) by (rewrite plus_IZR; lra).
    rewrite Ez in Z3' |- *. replace (k + prodZ (map c (seq 0 m)))%Z with 0%Z; [ring|]. symmetry. apply IZR_close. 
    replace (2 * PI * IZR (k + prodZ (map c (seq 0 m))) - 2 * PI * 0) with (2 * PI * IZR (k + prodZ (map c (seq 0 m)))) by ring. exact Z3'. }
  pose proof (lattice_const (fun t => defectM (g t)) 0 t Cf Lf) as E. cbn beta in E. rewrite D0, Eg in E. unfold defectM in E. rewrite HA in E. rewrite minus_IZR. lra.
Qed.
End Many.
