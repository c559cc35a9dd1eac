(** What is asked of Poseidon parameters and of the integer literals they are written
    with. *)
From Coq Require Import List NArith ZArith Bool.
From Verif Require Import FieldDef.
Import ListNotations.

(** the number with the little-endian digits [ds] in base 2^64 *)
Fixpoint digits_value (ds : list N) : N :=
  match ds with [] => 0 | d :: r => d + 2 ^ 64 * digits_value r end%N.
Definition is_digit (d : N) : Prop := (d < 2 ^ 64)%N.

Section Spec.
  Variable F : Field.
  (** the number of coordinates that are not zero *)
  Fixpoint weight (v : list F) : nat :=
    match v with [] => O | x :: r => (if feqb x f0 then 0 else 1) + weight r end.
  Definition apply_matrix (m : list (list F)) (v : list F) : list F :=
    map (fun row => fsum (length v) (fun j => fmul (nth j row f0) (nth j v f0))) m.
  (** maximum distance separable: a nonzero vector and its image have more than n nonzero
      coordinates between them *)
  Definition separable (n : nat) (m : list (list F)) : Prop :=
    forall v, length v = n -> weight v <> O -> n + 1 <= weight v + weight (apply_matrix m v).
  (** one input of length n for every output of length n *)
  Definition permutes (n : nat) (f : list F -> list F) : Prop :=
    (forall v, length v = n -> length (f v) = n) /\
    forall w, length w = n -> exists v, length v = n /\ f v = w /\ forall v', length v' = n -> f v' = w -> v' = v.
End Spec.
Arguments weight {F}. Arguments apply_matrix {F}. Arguments separable {F}. Arguments permutes {F}.
