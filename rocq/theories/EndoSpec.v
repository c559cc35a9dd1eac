(** What an endoscalar's bits mean. *)
From Coq Require Import List Arith NArith Bool.
From Verif Require Import FieldDef.
Import ListNotations.

Section Lift.
  Variables (F : Field) (zeta : F).
  (** the digit of bit pair (n, e): (-1)^n zeta^e *)
  Definition digit (n e : bool) : F :=
    fmul (if n then fopp f1 else f1) (if e then zeta else f1).
  (** 2^(k+1) (zeta + 1) + sum over i < k of 2^(k-1-i) digit(b_2i, b_2i+1) *)
  Definition lift_sum (k : nat) (bit : nat -> bool) : F :=
    fadd (fmul (fpow (fadd f1 f1) (k + 1)) (fadd zeta f1))
         (fsum k (fun i => fmul (fpow (fadd f1 f1) (k - 1 - i)) (digit (bit (2 * i)) (bit (2 * i + 1))))).
End Lift.
Arguments digit {F} zeta n e. Arguments lift_sum {F} zeta k bit.

(** bit i of a value *)
Definition nbit (v : N) (i : nat) : bool := N.testbit v (N.of_nat i).
(** is a square *)
Definition square {F : Field} (v : F) : Prop := exists s, fmul s s = v.
