(** The constraint counts reported by circuit objects. *)
From Coq Require Import List Arith.
From Verif Require Import FieldDef ArithModel CircModel RegModel StageModel.
Import ListNotations.

(** crates/ragu_circuits/src/lib.rs:275-277 [Processed::constraint_counts]: the
    two totals of the metrics; [None] when [into_circuit_object] (214-239)
    refuses the circuit. *)
Definition circuit_counts {F : Field} (x0 x1 x2 x3 yc onec hc : F) (lg : nat) (body : prog F) (outs : list wref)
  : option (nat * nat) :=
  match circuit_object x0 x1 x2 x3 yc onec hc (rk_n lg) (rk_nc lg) body outs,
        metrics_eval F x0 x1 x2 x3 yc onec hc body outs with
  | Some _, Some (gates, constraints, _, _) => Some (gates, constraints)
  | _, _ => None
  end.

(** crates/ragu_circuits/src/staging/bonding.rs:221-225
    [Stripped::constraint_counts]: one constraint less; an underflow is [None]. *)
Definition stripped_counts (inner : nat * nat) : option (nat * nat) :=
  let '(mul, lin) := inner in
  match lin with O => None | S l => Some (mul, l) end.

(** crates/ragu_circuits/src/staging/mask.rs:156-162
    [StageMask::constraint_counts]: it looks at the rank only; an underflow is
    [None]. *)
Definition mask_counts (n : nat) : option (nat * nat) :=
  match 4 * n with O => None | S l => Some (n, l) end.
