(** The production instantiation: the constants that the code fixes for the Pasta cycle.
    What the application chooses (its steps and its header size) stays a parameter, as do
    the hash functions of the registry digests and the constants of the metrics. *)
From Coq Require Import List Arith NArith ZArith.
From Verif Require Import FieldDef GF Pasta PastaModel ArithModel FFTModel CircModel GadgetModel SpongeModel StageModel RegModel PcdModel EscModel RecModel RecStageModel AppModel VerifyModel NestedModel FuseModel Props_Pasta.
Import ListNotations.
Local Open Scope nat_scope.

(** ragu_circuits polynomials/mod.rs:111-114 [ProductionRank] = R<13>, and 39-42
    [log2_n]: 13 - 2 *)
Definition PROD_LG : nat := 11.
(** ragu_pcd internal/native/mod.rs:19-22 [RevdotParameters] *)
Definition NUM_GROUPS : nat := 19.
Definition GROUP_SIZE : nat := 7.
(** ragu_pcd lib.rs:51 [RAGU_TAG]: the bytes of "FIXME" *)
Definition RAGU_TAG : list N := [70; 73; 88; 77; 69]%N.
(** ragu_arithmetic lib.rs:105 [Uendo] = u128 *)
Definition UENDO_BITS : nat := 128.
(** ragu_pcd internal/tests.rs:42 [HEADER_SIZE], the size the crate's own tests use *)
Definition HEADER_SIZE : nat := 65.
(** [From<u64> for Fp] (pasta_curves) *)
Definition fp_of_u (n : N) : Fp := lFp (Z.of_N n).
(** [to_repr] of the two fields as integers (pasta_curves) *)
Definition fp_repr (a : Fp) : N := Z.to_N (vFp a).
Definition fq_repr (a : Fq) : N := Z.to_N (vFq a).
(** ragu_pasta lib.rs:62-70 [impl Cycle for Pasta]: the circuit field is Fp, the nested
    curve Pallas, the host curve Vesta; the curves' constant (y^2 = x^3 + 5), the fields'
    [MULTIPLICATIVE_GENERATOR] 5, [ZETA] and roots of unity are those of pasta_curves
    (Props_Pasta, PastaModel) *)
Definition CURVE_B : Fp := lFp 5.
Definition GENERATOR : Fp := lFp 5.

Section Prod.
  Variables (x0 x1 x2 x3 yc onec hc : Fp) (x0' x1' x2' x3' yc' onec' hc' : Fq) (hs : nat) (fsqrt : Fp -> option Fp).
  (** ragu_pcd internal/native/mod.rs:317-395 at these constants *)
  Definition prod_obj : nat -> icid -> option (cobj Fp) :=
    native_obj TAFp x0 x1 x2 x3 yc onec hc PROD_LG CURVE_B hs GROUP_SIZE NUM_GROUPS PoseidonFp fp_of_u RAGU_TAG UENDO_BITS GENERATOR fsqrt fp_zeta.
  (** ragu_pcd internal/nested/mod.rs [register_all] at these constants *)
  Definition prod_nobj : ncid -> option (cobj Fq) :=
    nested_obj fq_zeta x0' x1' x2' x3' yc' onec' hc' PROD_LG UENDO_BITS NUM_ENDOSCALING_POINTS.
End Prod.
(** ragu_circuits registry.rs:396-399 and lib.rs:275-277 [constraint_counts] of a
    compiled circuit: the totals over its segments *)
Definition constraint_counts {F : Field} (o : cobj F) : nat * nat := (list_sum (map fst (ob_segs F o)), list_sum (map snd (ob_segs F o))).
