(** Specification for C08. *)
From Coq Require Import List Arith NArith.
From Verif Require Import MSMModel.
Import ListNotations.

(** n-fold sum P + ... + P *)
Definition nmul {G : CMon} (n : N) (P : G) : G := N.iter n (gadd P) gid.

(** sum of [k_i] P_i over paired lists *)
Fixpoint naive_msm {G : CMon} (ks : list N) (ps : list G) : G :=
  match ks, ps with
  | k :: ks', p :: ps' => gadd (nmul k p) (naive_msm ks' ps')
  | _, _ => gid
  end.

(** integer denoted by a little-endian byte string: sum of b_i 256^i *)
Fixpoint byte_value (i : N) (bytes : list N) : N :=
  match bytes with [] => 0 | b :: bs => b * 256 ^ i + byte_value (i + 1) bs end%N.

(** a well formed scalar: bytes below 256, value below 2^num_bits *)
Definition scalar_repr (num_bits : nat) (bytes : list N) : Prop :=
  Forall (fun b => (b < 256)%N) bytes /\ (byte_value 0 bytes < 2 ^ N.of_nat num_bits)%N.
