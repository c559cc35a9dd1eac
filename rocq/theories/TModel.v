(** Model of [Rank::tz], [Rank::tx], [Rank::txz]
    ([crates/ragu_circuits/src/polynomials/mod.rs:44-101]) and of the value
    computed by [txz::Evaluate::predict] (txz.rs:93-150). *)
From Coq Require Import List Arith Bool.
From Verif Require Import FieldDef ArithModel SparseModel.
Import ListNotations.

Section T.
  Variable F : Field.

  (** mod.rs:52-56, the loop pushing [l + r] *)
  Fixpoint tz_loop (cnt : nat) (l r z zinv : F) : list F :=
    match cnt with
    | O => []
    | S cnt' => fadd l r :: tz_loop cnt' (fmul l zinv) (fmul r z) z zinv
    end.
  (** mod.rs:45-60 [tz]; [n] is [R::n()], [num_coeffs] is [4n] *)
  Definition t_z (n : nat) (z : F) : option (poly F) :=
    let c := if feqb z f0 then []
             else
               let zinv := finv z in
               let zpow := fpow z (2 * n) in
               tz_loop n (fmul (fopp zpow) zinv) (fopp zpow) z zinv in
    wiring_build (4 * n) n [] [] c [].

  (** mod.rs:67-71 *)
  Fixpoint tx_loop (cnt : nat) (xi x : F) : list F :=
    match cnt with O => [] | S cnt' => xi :: tx_loop cnt' (fmul xi x) x end.
  (** mod.rs:63-77 [tx] *)
  Definition t_x (n : nat) (x : F) : option (poly F) :=
    let v := if feqb x f0 then [] else rev (tx_loop n (fopp (fpow x (3 * n))) x) in
    wiring_build (4 * n) n v v [] [].

  (** txz.rs:137-143, the geometric doubling loop; returns the final (l, r) *)
  Fixpoint txz_double (cnt : nat) (l r xz_step xz_inv_step : F) : F * F :=
    match cnt with
    | O => (l, r)
    | S cnt' =>
        txz_double cnt' (fadd l (fmul l xz_step)) (fadd r (fmul r xz_inv_step))
                   (fmul xz_step xz_step) (fmul xz_inv_step xz_inv_step)
    end.
  (** txz.rs:93-150 [predict]: the predicted value and the auxiliary inverses;
      [None] is [Error::InvalidWitness("division by zero")] *)
  Definition txz_predict (log2_n : nat) (x z : F) : option (F * (F * F)) :=
    let n := 2 ^ log2_n in
    if feqb x f0 then None else
    if feqb z f0 then None else
    let x_inv := finv x in
    let z_inv := finv z in
    let l0 := fmul (fpow x (4 * n - 1)) (fpow z (2 * n)) in
    let '(l, r) := txz_double log2_n l0 l0 (fmul x_inv z) (fmul x_inv z_inv) in
    Some (fopp (fadd l (fmul r z_inv)), (x_inv, z_inv)).

  (** mod.rs:80-101 [txz]: zero shortcut, otherwise the wireless emulator takes
      the routine's prediction ([Emulator::routine], Known branch).  [None] is
      the [expect] panic. *)
  Definition t_xz (log2_n : nat) (x z : F) : option F :=
    if feqb x f0 || feqb z f0 then Some f0
    else match txz_predict log2_n x z with Some (v, _) => Some v | None => None end.
End T.
Arguments tz_loop {F} cnt l r z zinv. Arguments t_z {F} n z. Arguments tx_loop {F} cnt xi x.
Arguments t_x {F} n x. Arguments txz_double {F} cnt l r xz_step xz_inv_step.
Arguments txz_predict {F} log2_n x z. Arguments t_xz {F} log2_n x z.
