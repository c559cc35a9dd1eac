(** Specification of claim folding: weighted double sums. *)
From Coq Require Import List Arith.
From Verif Require Import FieldDef SparseModel SparseSpec.
Import ListNotations.

Section FoldSpec.
  Variable F : Field.
  (** position of the off-diagonal entry (i, j), i <> j, of an n x n matrix listed
      row by row without its diagonal *)
  Definition err_index (n i j : nat) : nat := (i * (n - 1) + (if j <? i then j else j - 1))%nat.
  (** the matrix whose diagonal is [ky] and whose other entries are [errs] *)
  Definition entry (n : nat) (errs ky : list F) (i j : nat) : F :=
    if (i =? j)%nat then nth i ky f0 else nth (err_index n i j) errs f0.
  (** weighted sum of a matrix: row i by s^(n-1-i), column j by t^(n-1-j) *)
  Definition weigh (n : nat) (s t : F) (m : nat -> nat -> F) : F :=
    fsum n (fun i => fsum n (fun j => fmul (fmul (fpow s (n - 1 - i)) (fpow t (n - 1 - j))) (m i j))).
  (** descending powers *)
  Definition hfold (n : nat) (s : F) (l : nat -> F) : F := fsum n (fun i => fmul (fpow s (n - 1 - i)) (l i)).
  (** [revdot] as a sum over coefficients *)
  Definition rdot (NC : nat) (p q : poly F) : F := fsum NC (fun k => fmul (coeff_at p k) (coeff_at q (NC - 1 - k))).
End FoldSpec.
Arguments entry {F}. Arguments weigh {F}. Arguments hfold {F}. Arguments rdot {F}.
