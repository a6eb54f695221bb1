(** * Num: the numeric interface of the templates and its exact-real instance.

    Every header of /repo/include/cavc is a template over [typename Real].  The
    model is generic in the same way, over the class [RealOps]. *)
From Coq Require Import ZArith NArith Reals Lra List Bool.
Import ListNotations.

(** Values with infinities as used by the spatial index, getExtents and
    ClosestPoint ([std::numeric_limits<Real>::infinity()]).
    [xhil lo hi mn mx] models the Hilbert coordinate of an item,
    staticspatialindex.hpp:83-84,100-105:
      [static_cast<uint32_t>(floor(65535 * ((mn + mx) / 2 - lo) / (hi - lo)))],
    [None] when the conversion to uint32 is undefined (NaN or out of range). *)
Class OrdOps := {
  X : Type;
  xltb : X -> X -> bool;
  xinf : X;
  xninf : X;
  xhil : X -> X -> X -> X -> option N
}.

(** Arithmetic, comparison and libm operations used by the templates. *)
Class RealOps := {
  T : Type;
  tlit : Z -> positive -> T;        (* literal num/den, e.g. Real(1e-8) *)
  tadd : T -> T -> T;
  tsub : T -> T -> T;
  tmul : T -> T -> T;
  tdiv : T -> T -> T;
  topp : T -> T;
  tabs : T -> T;
  tsqrt : T -> T;
  tfloor : T -> T;
  tltb : T -> T -> bool;
  tleb : T -> T -> bool;
  teqb : T -> T -> bool;
  tsin : T -> T;
  tcos : T -> T;
  ttan : T -> T;
  tatan : T -> T;
  tacos : T -> T;
  tatan2 : T -> T -> T;             (* atan2(y, x) *)
  tpi : T;
  tofnat : nat -> T;                (* conversion size_t -> Real *)
  tceilnat : T -> option nat;       (* static_cast<size_t>(ceil(x)), None = UB *)
  ord :> OrdOps;
  inj : T -> X;
  xsubt : X -> T -> X;              (* AABB::expand on stored index boxes *)
  xaddt : X -> T -> X;
  xsqrt : X -> X
}.

Declare Scope t_scope.
Delimit Scope t_scope with t.
Notation "x + y" := (tadd x y) : t_scope.
Notation "x - y" := (tsub x y) : t_scope.
Notation "x * y" := (tmul x y) : t_scope.
Notation "x / y" := (tdiv x y) : t_scope.
Notation "- x" := (topp x) : t_scope.
Notation "x <? y" := (tltb x y) : t_scope.
Notation "x <=? y" := (tleb x y) : t_scope.
Notation "x >? y" := (tltb y x) (at level 70, no associativity) : t_scope.
Notation "x >=? y" := (tleb y x) (at level 70, no associativity) : t_scope.
Notation "x =? y" := (teqb x y) : t_scope.

(** ** Exact real instance *)

Open Scope R_scope.

Inductive ext : Type := NInf | Fin (r : R) | PInf.

Definition Rltb (x y : R) : bool := if Rlt_dec x y then true else false.
Definition Rleb (x y : R) : bool := if Rle_dec x y then true else false.
Definition Reqb (x y : R) : bool := if Req_EM_T x y then true else false.

Lemma Rltb_spec x y : Rltb x y = true <-> x < y.
Proof. unfold Rltb. destruct (Rlt_dec x y); split; auto; discriminate. Qed.
Lemma Rltb_false x y : Rltb x y = false <-> y <= x.
Proof. unfold Rltb. destruct (Rlt_dec x y); split; auto; try discriminate; lra. Qed.
Lemma Rleb_spec x y : Rleb x y = true <-> x <= y.
Proof. unfold Rleb. destruct (Rle_dec x y); split; auto; discriminate. Qed.
Lemma Rleb_false x y : Rleb x y = false <-> y < x.
Proof. unfold Rleb. destruct (Rle_dec x y); split; auto; try discriminate; lra. Qed.
Lemma Reqb_spec x y : Reqb x y = true <-> x = y.
Proof. unfold Reqb. destruct (Req_EM_T x y); split; auto; discriminate. Qed.
Lemma Reqb_false x y : Reqb x y = false <-> x <> y.
Proof. unfold Reqb. destruct (Req_EM_T x y); split; auto; try discriminate; congruence. Qed.

Definition ext_ltb (a b : ext) : bool :=
  match a, b with
  | NInf, NInf => false
  | NInf, _ => true
  | Fin x, Fin y => Rltb x y
  | Fin _, PInf => true
  | _, _ => false
  end.

(** floor and ceiling as integers *)
Definition Zfloor (x : R) : Z := Int_part x.
Definition Zceil (x : R) : Z := (- Int_part (- x))%Z.

(** atan2 on exact reals (no signed zeros; atan2(0,0) = 0 as in C). *)
Definition Ratan2 (y x : R) : R :=
  if Rlt_dec 0 x then atan (y / x)
  else if Rlt_dec x 0 then
    (if Rle_dec 0 y then atan (y / x) + PI else atan (y / x) - PI)
  else if Rlt_dec 0 y then PI / 2
  else if Rlt_dec y 0 then - (PI / 2)
  else 0.

(** Hilbert coordinate, staticspatialindex.hpp:83-84,100-105.  A zero extent is
    0/0 = NaN or x/0 = inf: undefined conversion. *)
Definition Rhil (lo hi mn mx : ext) : option N :=
  match lo, hi, mn, mx with
  | Fin lo, Fin hi, Fin mn, Fin mx =>
      if Reqb (hi - lo) 0 then None
      else
        let z := Zfloor (65535 * ((mn + mx) / 2 - lo) / (hi - lo)) in
        if ((0 <=? z) && (z <? 4294967296))%Z then Some (Z.to_N z) else None
  | _, _, _, _ => None
  end.

Definition ROrd : OrdOps := {|
  X := ext; xltb := ext_ltb; xinf := PInf; xninf := NInf; xhil := Rhil
|}.

Definition ext_map (f : R -> R) (x : ext) : ext :=
  match x with Fin r => Fin (f r) | o => o end.

Definition ROps : RealOps := {|
  T := R;
  tlit := fun n d => IZR n / IZR (Zpos d);
  tadd := Rplus; tsub := Rminus; tmul := Rmult; tdiv := Rdiv; topp := Ropp;
  tabs := Rabs; tsqrt := sqrt;
  tfloor := fun x => IZR (Zfloor x);
  tltb := Rltb; tleb := Rleb; teqb := Reqb;
  tsin := sin; tcos := cos; ttan := tan; tatan := atan; tacos := acos;
  tatan2 := Ratan2; tpi := PI;
  tofnat := INR;
  tceilnat := fun x =>
    let z := Zceil x in
    if ((0 <=? z) && (z <? 18446744073709551616))%Z then Some (Z.to_nat z) else None;
  ord := ROrd;
  inj := Fin;
  xsubt := fun x d => ext_map (fun r => r - d) x;
  xaddt := fun x d => ext_map (fun r => r + d) x;
  xsqrt := fun x => ext_map sqrt x
|}.
