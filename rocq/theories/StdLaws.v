(** * What the C++ standard guarantees about std::sort and unordered_map iteration *)
From Coq Require Import List Bool Arith Permutation Sorted.
From Verif Require Import Base Num Intersects.
Import ListNotations.

(** std::sort permutes its input ([alg.sort]; the guarantee needs a strict weak order for sortedness, the permutation always holds
    when the call is defined); iterating over an unordered_map visits every entry once. *)
Record strictWeak {A} (cmp : A -> A -> bool) : Prop := {
  sw_irrefl : forall a, cmp a a = false;
  sw_trans : forall a b c, cmp a b = true -> cmp b c = true -> cmp a c = true;
  sw_incomp : forall a b c, cmp a b = false -> cmp b a = false -> cmp b c = false -> cmp c b = false -> cmp a c = false /\ cmp c a = false }.

Class StdLaws (SL : StdLib) : Prop := {
  sort_perm : forall A (cmp : A -> A -> bool) (l : list A), Permutation (std_sort cmp l) l;
  sort_sorted : forall A (cmp : A -> A -> bool) (l : list A), strictWeak cmp -> StronglySorted (fun a b => cmp b a = false) (std_sort cmp l);
  order_perm : forall A (l : list (nat * A)), Permutation (map_order l) l }.

(** the laws are satisfiable: insertion sort and insertion order *)
Fixpoint insert {A} (cmp : A -> A -> bool) (x : A) (l : list A) : list A :=
  match l with [] => [x] | y :: l' => if cmp y x then y :: insert cmp x l' else x :: l end.
#[export] Instance InsertionStd : StdLib := {
  std_sort := fun A cmp l => fold_right (insert cmp) [] l;
  map_order := fun A l => l }.
Lemma insert_perm {A} (cmp : A -> A -> bool) x l : Permutation (insert cmp x l) (x :: l).
Proof.
  induction l as [|y l IH]; cbn [insert]; [reflexivity|]. destruct (cmp y x); [|reflexivity].
  rewrite IH. apply perm_swap.
Qed.
Lemma sw_le_trans {A} (cmp : A -> A -> bool) : strictWeak cmp -> forall a b c, cmp b a = false -> cmp c b = false -> cmp c a = false.
Proof.
  intros [I T N] a b c H1 H2. destruct (cmp c a) eqn:E; [|reflexivity].
  destruct (cmp a b) eqn:Eab. { rewrite (T c a b E Eab) in H2. discriminate. }
  destruct (cmp b c) eqn:Ebc. { rewrite (T b c a Ebc E) in H1. discriminate. }
  destruct (N a b c Eab H1 Ebc H2) as [_ F]. congruence.
Qed.
Lemma insert_sorted {A} (cmp : A -> A -> bool) x l : strictWeak cmp -> StronglySorted (fun a b => cmp b a = false) l -> StronglySorted (fun a b => cmp b a = false) (insert cmp x l).
Proof.
  intros W. induction 1 as [|y l S IH F]; cbn [insert]; [repeat constructor|]. destruct (cmp y x) eqn:E.
  - constructor; [auto|]. rewrite (insert_perm cmp x l). constructor; [|auto].
    destruct (cmp x y) eqn:E'; [|reflexivity]. pose proof (sw_trans cmp W _ _ _ E E'). now rewrite (sw_irrefl cmp W) in H.
  - constructor; [now constructor|]. constructor; [auto|]. apply List.Forall_forall. intros z Hz. rewrite List.Forall_forall in F.
    apply (sw_le_trans cmp W x y z); auto.
Qed.
#[export] Instance InsertionLaws : StdLaws InsertionStd.
Proof.
  split.
  - intros A cmp l. cbn. induction l as [|x l IH]; cbn [fold_right]; [constructor|]. rewrite insert_perm. now constructor.
  - intros A cmp l W. cbn. induction l as [|x l IH]; cbn [fold_right]; [constructor|]. now apply insert_sorted.
  - intros. reflexivity.
Qed.

(** comparing by a key of a totally ordered type is a strict weak order *)
Lemma strictWeak_key {A K} (ltb : K -> K -> bool) (key : A -> K) : strictWeak ltb -> strictWeak (fun a b => ltb (key a) (key b)).
Proof. intros [I T N]. split; eauto. Qed.

(** the first element of a sorted list is minimal *)
Lemma sorted_head {A} (cmp : A -> A -> bool) x l : StronglySorted (fun a b => cmp b a = false) (x :: l) -> forall y, In y l -> cmp y x = false.
Proof. intros S y Hy. inversion S as [|? ? _ F]; subst. rewrite List.Forall_forall in F. auto. Qed.
