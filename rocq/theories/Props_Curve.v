(** Property theorem C63_points: the point gadget on the curves of the production
    instantiation. *)
From Coq Require Import List Arith NArith ZArith Bool Lia Ring Field.
From Verif Require Import FieldDef GF ArithModel Pasta PastaModel PastaProofs GadgetModel GadgetSpec GadgetProofs PointSpec EndoSpec Props_Gadget Props_Pasta ProdModel.
Import ListNotations.

(** what the formulas need: no point with x = 0 or y = 0 *)
Section Gen.
  Variable F : Field.
  Add Field FFu33 : (f_theory F).
  Open Scope f_scope.
  Variables (b zeta : F).
  Hypothesis two : (1 + 1 : F) <> 0.
  Hypothesis three : (1 + (1 + 1) : F) <> 0.
  Hypothesis bsq : ~ square b.
  Hypothesis bcube : forall x : F, x ^ 3 + b <> 0.
  Hypothesis zeta_ok : zeta * zeta + zeta + 1 = 0.
  Lemma z3 : zeta * (zeta * zeta) = 1.
  Proof. transitivity (1 + (zeta - 1) * (zeta * zeta + zeta + 1)); [ring|]. rewrite zeta_ok. ring. Qed.
  Lemma z1 : zeta <> 1.
  Proof. intros E. apply three. rewrite <- zeta_ok, E. ring. Qed.
  Lemma no_x0 p : on_curve b p -> fst p <> 0.
  Proof. intros O E. apply bsq. exists (snd p). unfold on_curve in O. rewrite O, E. ring. Qed.
  Lemma no_y0 p : on_curve b p -> snd p <> 0.
  Proof. intros O E. apply (bcube (fst p)). unfold on_curve in O. rewrite E in O. cbn [fpow]. transitivity (fst p * (fst p * fst p) + b); [ring|]. rewrite <- O. ring. Qed.
  Lemma endo_on p : on_curve b p -> on_curve b (zeta * fst p, snd p).
  Proof.
    unfold on_curve. cbn [fst snd]. intros ->. f_equal.
    transitivity (zeta * (zeta * zeta) * (fst p * (fst p * fst p))); [rewrite z3; ring|ring].
  Qed.
  Lemma endo_other p : on_curve b p -> zeta * fst p <> fst p.
  Proof.
    intros O E. apply z1. apply (fmul_cancel_l F (fst p)); [apply no_x0, O|]. transitivity (fst p * 1); [|reflexivity].
    transitivity (zeta * fst p); [ring|]. rewrite E. ring.
  Qed.
  (** the six images of a point *)
  Definition images (p : F * F) : list (F * F) :=
    [p; (fst p, - snd p); (zeta * fst p, snd p); (zeta * fst p, - snd p); (zeta * (zeta * fst p), snd p); (zeta * (zeta * fst p), - snd p)].
  Lemma images_on p : on_curve b p -> Forall (on_curve b) (images p).
  Proof.
    intros O. assert (N : forall q, on_curve b q -> on_curve b (fst q, - snd q)).
    { intros q Q. unfold on_curve in *. cbn [fst snd]. rewrite <- Q. ring. }
    pose proof (endo_on p O) as O1. pose proof (endo_on _ O1) as O2. cbn [fst snd] in O2.
    repeat constructor; auto. apply (N _ O1). apply (N _ O2).
  Qed.
  Lemma images_distinct p : on_curve b p -> NoDup (images p).
  Proof.
    intros O. pose proof (no_y0 p O) as Y.
    assert (Y2 : snd p <> - snd p).
    { intros E. assert (Q : (1 + 1) * snd p = 0) by (transitivity (snd p - - snd p); [ring|rewrite <- E; ring]).
      destruct (fmul_integral F _ _ Q); contradiction. }
    pose proof (endo_other p O) as A. pose proof (endo_on p O) as O1. pose proof (endo_other _ O1) as B. cbn [fst] in B.
    assert (C : zeta * (zeta * fst p) <> fst p).
    { intros E. apply A. transitivity (zeta * (zeta * (zeta * fst p))); [rewrite E; reflexivity|].
      transitivity (zeta * (zeta * zeta) * fst p); [ring|rewrite z3; ring]. }
    destruct p as [x y]. cbn [fst snd] in *. unfold images. cbn [fst snd].
    repeat (constructor; [cbn [In]; intros Q; repeat (destruct Q as [Q|Q]); congruence|]). constructor.
  Qed.
  Lemma points p : on_curve b p ->
    fst p <> 0 /\ snd p <> 0 /\ Forall (on_curve b) (images p) /\ NoDup (images p) /\
    (forall r, holds (p_double F F (pwir p)) r <-> exists q, sum_of b p p q /\ r = pwir q) /\
    (forall s, exists q, sum_of b p p q /\ simulate (p_double F F (phon p)) s = Some (phon q, bump s 0 4 8)) /\
    (forall s, exists q, sum_of b (zeta * fst p, snd p) p q /\
       simulate (p_add_incomplete F F (phon (zeta * fst p, snd p)) (phon p) None) s = Some (phon q, None, bump s 0 3 6)).
  Proof.
    intros O. pose proof (no_x0 p O) as X. pose proof (no_y0 p O) as Y.
    destruct (C32_double F b p two O) as (D1 & D2 & _).
    split; [exact X|]. split; [exact Y|]. split; [exact (images_on p O)|]. split; [exact (images_distinct p O)|].
    split; [exact (D1 Y)|]. split; [exact (D2 Y)|].
    intros s. destruct (C32_add F b (zeta * fst p, snd p) p None two (endo_on p O) O) as (_ & A & _).
    exact (A (endo_other p O) s).
  Qed.
End Gen.

(** On both curves of the cycle: no point has a coordinate 0, a point, its images under the
    endomorphism and their negatives are six points of the curve, doubling is defined at
    every point, and so is the addition of a point and its image, the start of an
    endoscalar multiplication. *)
Theorem C63_points :
  (forall p, on_curve CURVE_B p ->
    fst p <> f0 /\ snd p <> f0 /\ Forall (on_curve CURVE_B) (images Fp fp_zeta p) /\ NoDup (images Fp fp_zeta p) /\
    (forall r, holds (p_double Fp Fp (pwir p)) r <-> exists q, sum_of CURVE_B p p q /\ r = pwir q) /\
    (forall s, exists q, sum_of CURVE_B p p q /\ simulate (p_double Fp Fp (phon p)) s = Some (phon q, bump s 0 4 8)) /\
    (forall s, exists q, sum_of CURVE_B (fmul fp_zeta (fst p), snd p) p q /\
       simulate (p_add_incomplete Fp Fp (phon (fmul fp_zeta (fst p), snd p)) (phon p) None) s = Some (phon q, None, bump s 0 3 6))) /\
  (forall p, on_curve (lFq 5) p ->
    fst p <> f0 /\ snd p <> f0 /\ Forall (on_curve (lFq 5)) (images Fq fq_zeta p) /\ NoDup (images Fq fq_zeta p) /\
    (forall r, holds (p_double Fq Fq (pwir p)) r <-> exists q, sum_of (lFq 5) p p q /\ r = pwir q) /\
    (forall s, exists q, sum_of (lFq 5) p p q /\ simulate (p_double Fq Fq (phon p)) s = Some (phon q, bump s 0 4 8)) /\
    (forall s, exists q, sum_of (lFq 5) (fmul fq_zeta (fst p), snd p) p q /\
       simulate (p_add_incomplete Fq Fq (phon (fmul fq_zeta (fst p), snd p)) (phon p) None) s = Some (phon q, None, bump s 0 3 6))).
Proof.
  split.
  - apply points.
    + intros E. apply (f_equal vFp) in E. revert E. vm_compute. discriminate.
    + intros E. apply (f_equal vFp) in E. revert E. vm_compute. discriminate.
    + exact (proj1 (proj1 C59_squares)).
    + exact (proj1 C59_no_order_two).
    + exact fp_zeta_ok.
  - apply points.
    + intros E. apply (f_equal vFq) in E. revert E. vm_compute. discriminate.
    + intros E. apply (f_equal vFq) in E. revert E. vm_compute. discriminate.
    + exact (proj1 (proj2 C59_squares)).
    + exact (proj2 C59_no_order_two).
    + exact fq_zeta_ok.
Qed.
Print Assumptions C63_points.

(** the points (-1, 2), the generators of the pasta_curves crate *)
Example C63_points_ex : on_curve CURVE_B (lFp (-1), lFp 2) /\ on_curve (lFq 5) (lFq (-1), lFq 2).
Proof. split; apply gf_ext; vm_compute; reflexivity. Qed.
