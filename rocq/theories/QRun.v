(** * An executable scalar implementation (rationals), used to exhibit concrete runs of the generic model

    Square roots are exact for squares of rationals with small terms and rounded down at 10^-12 otherwise; the trigonometric functions are
    rational approximations of no particular quality: theorems generic in [RealOps] hold for it as for any other implementation. *)
From Coq Require Import ZArith NArith QArith Qabs Qround List Bool Arith.
From Verif Require Import Base Num.
Import ListNotations.

Inductive extQ := QNInf | QFin (q : Q) | QPInf.
Definition qltb (a b : Q) : bool := negb (Qle_bool b a).
Definition extq_ltb (a b : extQ) : bool :=
  match a, b with
  | QNInf, QNInf => false
  | QNInf, _ => true
  | QFin x, QFin y => qltb x y
  | QFin _, QPInf => true
  | _, _ => false
  end.
Definition qhil (lo hi mn mx : extQ) : option N :=
  match lo, hi, mn, mx with
  | QFin lo, QFin hi, QFin mn, QFin mx =>
      if Qeq_bool hi lo then None
      else
        let z := Qfloor (65535 * ((mn + mx) / 2 - lo) / (hi - lo)) in
        if ((0 <=? z) && (z <? 4294967296))%Z then Some (Z.to_N z) else None
  | _, _, _, _ => None
  end.
Definition extq_map (f : Q -> Q) (x : extQ) : extQ := match x with QFin q => QFin (f q) | o => o end.

Definition qsqrt (q : Q) : Q :=
  let n := (Qnum q * Zpos (Qden q))%Z in
  let s := Z.sqrt n in
  if (s * s =? n)%Z then Qred (s # Qden q)
  else Qred (Z.sqrt (n * 10 ^ 24) # (Qden q * 10 ^ 12)).
Definition qpi : Q := 3141592653589793 # 1000000000000000.
(** first terms of the series, rounded *)
Definition qround (x : Q) : Q := Qred (Qfloor (x * 1000 + (1 # 2)) # 1000).
Definition qsin (x : Q) : Q := qround (x - x * x * x / 6).
Definition qcos (x : Q) : Q := qround (1 - x * x / 2).
Definition qatan (x : Q) : Q := qround (x / (1 + (28 # 100) * x * x)).
Definition qatan2 (y x : Q) : Q :=
  if qltb 0 x then qatan (y / x)
  else if qltb x 0 then (if Qle_bool 0 y then qatan (y / x) + qpi else qatan (y / x) - qpi)
  else if qltb 0 y then qpi / 2 else if qltb y 0 then - (qpi / 2) else 0.

Definition QOrd : OrdOps := {| X := extQ; xltb := extq_ltb; xinf := QPInf; xninf := QNInf; xhil := qhil |}.
Definition QOps : RealOps := {|
  T := Q;
  tlit := fun n d => Qred (n # d);
  tadd := fun a b => Qred (a + b); tsub := fun a b => Qred (a - b); tmul := fun a b => Qred (a * b); tdiv := fun a b => Qred (a / b);
  topp := Qopp; tabs := Qabs; tsqrt := qsqrt;
  tfloor := fun x => inject_Z (Qfloor x);
  tltb := qltb; tleb := Qle_bool; teqb := Qeq_bool;
  tsin := qsin; tcos := qcos; ttan := fun x => qround (qsin x / qcos x); tatan := qatan; tacos := fun x => Qred (qpi / 2 - x); tatan2 := qatan2; tpi := qpi;
  tofnat := fun n => inject_Z (Z.of_nat n);
  tceilnat := fun x => let z := Qceiling x in if ((0 <=? z) && (z <? 18446744073709551616))%Z then Some (Z.to_nat z) else None;
  ord := QOrd; inj := QFin;
  xsubt := fun x d => extq_map (fun q => Qred (q - d)) x;
  xaddt := fun x d => extq_map (fun q => Qred (q + d)) x;
  xsqrt := extq_map qsqrt
|}.
