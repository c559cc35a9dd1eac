(** What the headers of the hash tree application should be. *)
From Coq Require Import List Arith NArith.
From Verif Require Import FieldDef SpongeModel SpongeSpec AppSpec.
Import ListNotations.

Section Spec.
  Variables (F : Field) (P : pparams F).
  (** Poseidon on at most as many elements as its rate: the elements, filled up with
      zeros, permuted; the first element of the result *)
  Definition phash (xs : list F) : F := nth 0 (poseidon P (xs ++ repeat f0 (pp_T P - length xs))) f0.
  (** the headers of size hs: the trivial one, a leaf, or a node over two leaves (the
      suffixes of the application's two header types count on from the two internal
      ones) *)
  Inductive tree_header (of_u : N -> F) (hs : nat) : list F -> Prop :=
  | th_trivial : tree_header of_u hs (padded hs f1 [])
  | th_leaf x : tree_header of_u hs (padded hs (of_u 2%N) [phash [x]])
  | th_node x y : tree_header of_u hs (padded hs (of_u 3%N) [phash [phash [x]; phash [y]]]).
End Spec.
Arguments phash {F}. Arguments tree_header {F}.
