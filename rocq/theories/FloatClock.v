(** Times as float32 tensors: the clock that shooting.py runs with by default. *)
From Coq Require Import Reals ZArith List Floats.SpecFloat.
From Verif Require Import Py ShootingModel.
Import ListNotations.
Open Scope Z_scope.

(** IEEE 754 binary32 and binary64, with rounding to nearest, ties to even. *)
Definition p32 := 24. Definition e32 := 128.
Definition p64 := 53. Definition e64 := 1024.
Definition add32 := SFadd p32 e32.
Definition sub32 := SFsub p32 e32.
Definition mul32 := SFmul p32 e32.
Definition div32 := SFdiv p32 e32.

(** Conversion between formats: the same number, rounded. *)
Definition cast (prec emax : Z) (x : spec_float) : spec_float :=
  match x with
  | S754_finite s m e => binary_round prec emax s m e
  | _ => x
  end.
Definition of_nat (prec emax : Z) (n : nat) : spec_float :=
  match n with O => S754_zero false | _ => binary_round prec emax false (Pos.of_nat n) 0 end.

Definition value (x : spec_float) : R :=
  match x with
  | S754_finite s m e =>
      let v := (IZR (Zpos m) * (if Z.leb 0 e then IZR (2 ^ e) else / IZR (2 ^ (- e))))%R in
      if s then (- v)%R else v
  | _ => 0%R
  end.

(** math.floor of a 0-dimensional tensor: ValueError on NaN, OverflowError on infinity. *)
Definition floor (x : spec_float) : res Z :=
  match x with
  | S754_zero _ => Ok 0
  | S754_infinity _ => Err OverflowError
  | S754_nan => Err ValueError
  | S754_finite s m e =>
      let z := if s then Zneg m else Zpos m in
      Ok (if Z.leb 0 e then z * 2 ^ e else Z.div z (2 ^ (- e)))
  end.

(** shooting.py:114, [math.floor(t / (t1 / it))] with t a float32 tensor: t1 / it is a
    Python float, which the division by a float32 tensor rounds to float32. *)
Definition index32 (t t1 : spec_float) (it : nat) : res Z :=
  let step := SFdiv p64 e64 (cast p64 e64 t1) (of_nat p64 e64 it) in
  floor (div32 t (cast p32 e32 step)).

(** torch.linspace(0., t1, steps), on CPU, element by element (aten RangeFactories: the
    first half is counted from the start, the second half from the end).  Simplification:
    the loop over whole SIMD vectors is not modelled, so this is the result for fewer
    elements than two vectors. *)
Definition linspace32 (t1 : spec_float) (steps : nat) : list spec_float :=
  let step := div32 (sub32 t1 (S754_zero false)) (of_nat p32 e32 (steps - 1)) in
  map (fun i => if Nat.ltb i (Nat.div steps 2)
                then add32 (S754_zero false) (mul32 step (of_nat p32 e32 i))
                else sub32 t1 (mul32 step (of_nat p32 e32 (steps - i - 1))))
      (seq 0 steps).

Definition third32 : spec_float := div32 (of_nat p32 e32 1) (of_nat p32 e32 3).
Definition two_thirds32 : spec_float := div32 (of_nat p32 e32 2) (of_nat p32 e32 3).
Definition half32 : spec_float := div32 (of_nat p32 e32 1) (of_nat p32 e32 2).

Definition float32_clock : clock := mkClock spec_float value
  (fun t => SFeqb t (S754_zero false)) add32 sub32
  (fun t => mul32 half32 t) (fun t => mul32 t third32) (fun t => mul32 t two_thirds32)
  index32 linspace32.

Definition one32 : spec_float := of_nat p32 e32 1.

