(** * Base: result monad for "machine" behaviour, and list (array) access.

    Not modelling any particular /repo file: this is the vocabulary used to make
    undefined behaviour and non-termination explicit in the model. *)
From Coq Require Import List Arith Lia Bool.
Import ListNotations.

(** [Ok a]: the C++ code returns normally with [a].
    [UB]: out-of-range access, read of uninitialised memory, or a
          floating-to-integer conversion whose value does not fit.
    [Fuel]: a loop exceeded the fuel supplied by the model. *)
Inductive res (A : Type) : Type :=
| Ok (a : A)
| UB
| Fuel.
Arguments Ok {A} a.
Arguments UB {A}.
Arguments Fuel {A}.

Definition bind {A B} (m : res A) (f : A -> res B) : res B :=
  match m with Ok a => f a | UB => UB | Fuel => Fuel end.

Notation "'let!' x := m 'in' f" := (bind m (fun x => f))
  (at level 200, x pattern, m at level 100, f at level 200, right associativity).

Definition isOk {A} (m : res A) : Prop := exists a, m = Ok a.

(** array read [a[i]] with bounds check *)
Definition rget {A} (l : list A) (i : nat) : res A :=
  match nth_error l i with Some a => Ok a | None => UB end.

(** read of a cell that may be uninitialised *)
Definition rgetI {A} (l : list (option A)) (i : nat) : res A :=
  match nth_error l i with Some (Some a) => Ok a | _ => UB end.

Fixpoint upd {A} (l : list A) (i : nat) (a : A) : list A :=
  match l, i with
  | [], _ => []
  | _ :: t, 0 => a :: t
  | h :: t, S i' => h :: upd t i' a
  end.

(** array write [a[i] = x] with bounds check *)
Definition rset {A} (l : list A) (i : nat) (a : A) : res (list A) :=
  if i <? length l then Ok (upd l i a) else UB.

Definition ofOption {A} (o : option A) : res A :=
  match o with Some a => Ok a | None => UB end.

(** monadic map / fold used for range-for loops whose body may fail *)
Fixpoint mmap {A B} (f : A -> res B) (l : list A) : res (list B) :=
  match l with
  | [] => Ok []
  | a :: t => let! b := f a in let! bs := mmap f t in Ok (b :: bs)
  end.

Fixpoint mfold {A S} (f : S -> A -> res S) (l : list A) (s : S) : res S :=
  match l with
  | [] => Ok s
  | a :: t => let! s' := f s a in mfold f t s'
  end.

Lemma upd_length {A} (l : list A) i a : length (upd l i a) = length l.
Proof. revert i; induction l; intros [|i]; simpl; auto. Qed.

Lemma nth_error_upd {A} (l : list A) i j a :
  nth_error (upd l i a) j =
  if (i =? j) && (i <? length l) then Some a else nth_error l j.
Proof.
  revert i j; induction l as [|h t IH]; intros i j.
  - simpl. rewrite andb_false_r. destruct i; reflexivity.
  - destruct i, j; simpl; auto.
    rewrite IH. destruct (i =? j); simpl; auto.
Qed.

Lemma nth_error_upd_eq {A} (l : list A) i a :
  i < length l -> nth_error (upd l i a) i = Some a.
Proof.
  intros H. rewrite nth_error_upd, Nat.eqb_refl.
  apply Nat.ltb_lt in H. rewrite H. reflexivity.
Qed.

Lemma nth_error_upd_ne {A} (l : list A) i j a :
  i <> j -> nth_error (upd l i a) j = nth_error l j.
Proof.
  intros H. rewrite nth_error_upd. apply Nat.eqb_neq in H. rewrite H. reflexivity.
Qed.

Lemma rset_ok {A} (l : list A) i a : i < length l -> rset l i a = Ok (upd l i a).
Proof. intros H. unfold rset. apply Nat.ltb_lt in H. now rewrite H. Qed.

Lemma rset_inv {A} (l l' : list A) i a :
  rset l i a = Ok l' -> i < length l /\ l' = upd l i a.
Proof.
  unfold rset. destruct (i <? length l) eqn:E; [|discriminate].
  apply Nat.ltb_lt in E. intros [= <-]. auto.
Qed.

Lemma rget_inv {A} (l : list A) i a : rget l i = Ok a <-> nth_error l i = Some a.
Proof. unfold rget. destruct (nth_error l i); split; congruence. Qed.

Lemma rgetI_inv {A} (l : list (option A)) i a :
  rgetI l i = Ok a <-> nth_error l i = Some (Some a).
Proof. unfold rgetI. destruct (nth_error l i) as [[|]|]; split; congruence. Qed.

Lemma bind_Ok {A B} (m : res A) (f : A -> res B) b :
  bind m f = Ok b -> exists a, m = Ok a /\ f a = Ok b.
Proof. destruct m; simpl; try discriminate; eauto. Qed.

Lemma nth_error_ext {A} (l l' : list A) :
  (forall i, nth_error l i = nth_error l' i) -> l = l'.
Proof.
  revert l'; induction l as [|a l IH]; intros [|b l'] H; auto.
  - specialize (H 0); discriminate.
  - specialize (H 0); discriminate.
  - f_equal; [specialize (H 0); simpl in H; congruence|].
    apply IH. intros i. apply (H (S i)).
Qed.
