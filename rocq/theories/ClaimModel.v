(** Revdot claims built from a trace polynomial
    (crates/ragu_pcd/src/internal/claims.rs). *)
From Coq Require Import List Arith.
From Verif Require Import FieldDef ArithModel SparseModel TModel.
Import ListNotations.

Section Claim.
  Variable F : Field.
  Variables (n NC : nat).
  Local Notation poly := (list (nat * list F)).
  (** claims.rs:94-105 [circuit_impl]: b = r(zX) + s(X,y) + t(X,z), the wiring
      polynomial being passed in *)
  Definition circuit_claim_b (z : F) (r sy : poly) : option poly :=
    match p_add NC (p_dilate z r) sy with
    | None => None
    | Some b1 => match t_z n z with
                 | None => None
                 | Some tz => p_add NC b1 tz
                 end
    end.
  (** claims.rs:109-113 [bonding_impl] *)
  Definition bonding_claim_b (sy : poly) : poly := sy.
  (** claims.rs:124-139 [fold_bonding_polys]; [None] is the empty iterator *)
  Definition fold_bonding_polys (z : F) (rxs : list poly) : option poly :=
    match rxs with
    | [] => None
    | [r] => Some r
    | _ => p_fold NC rxs z
    end.
End Claim.
Arguments circuit_claim_b {F}. Arguments fold_bonding_polys {F}. Arguments bonding_claim_b {F}.
