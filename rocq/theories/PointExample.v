(** A concrete curve group for the examples: y^2 = x^3 + 10 over F97 has prime
    order 103; multiples of (1, 37) are tabulated and the laws checked by
    computation over all points. *)
From Coq Require Import List Arith ZArith Bool Lia Ring Field.
From Verif Require Import FieldDef GF ModDef PointSpec PointProofs.
Import ListNotations.

Lemma check_103 : good 103. Proof. apply check_good. vm_compute. reflexivity. Qed.
Definition F103 : Field := GF 103 check_103.
Definition l103 (z : Z) : F103 := mk 103 check_103 z.
Definition v103 (x : F103) : Z := val 103 x.

Definition ex_tab : list (Z * Z) := [(1,37); (93,72); (52,29); (62,3); (31,64); (92,46); (79,80); (6,56); (54,72); (51,16); (47,25); (41,62); (66,80); (84,23); (13,48); (67,48); (91,45); (36,3); (71,31); (49,17); (95,83); (96,94); (12,34); (48,64); (81,45); (80,23); (19,46); (53,34); (18,33); (70,42); (17,49); (25,42); (83,51); (60,31); (68,29); (16,56); (76,62); (74,68); (72,83); (30,74); (2,42); (22,52); (27,83); (75,41); (39,16); (61,37); (35,60); (7,16); (77,35); (63,31); (32,63); (32,34); (63,66); (77,62); (7,81); (35,37); (61,60); (39,81); (75,56); (27,14); (22,45); (2,55); (30,23); (72,14); (74,29); (76,35); (16,41); (68,68); (60,66); (83,46); (25,55); (17,48); (70,55); (18,64); (53,63); (19,51); (80,74); (81,52); (48,33); (12,63); (96,3); (95,14); (49,80); (71,66); (36,94); (91,52); (67,49); (13,49); (84,74); (66,17); (41,35); (47,72); (51,81); (54,25); (6,41); (79,17); (92,51); (31,33); (62,94); (52,68); (93,25); (1,60)]%Z.
Definition ex_tab97 : list (F97 * F97) := map (fun t => (l97 (fst t), l97 (snd t))) ex_tab.

Definition ex_zeta : F97 := l97 35.
Definition ex_lambda : F103 := l103 56.
Definition ex_b : F97 := l97 10.

(** coordinates of i * (1, 37) *)
Definition ex_aff (i : F103) : option (F97 * F97) :=
  match Z.to_nat (v103 i) with O => None | S k => nth_error ex_tab97 k end.

(** computable versions of the laws *)
Definition opt_eqb (p q : option (F97 * F97)) : bool :=
  match p, q with
  | None, None => true
  | Some a, Some b => (feqb (fst a) (fst b) && feqb (snd a) (snd b))%bool
  | _, _ => false
  end.
Lemma opt_eqb_ok p q : opt_eqb p q = true <-> p = q.
Proof.
  destruct p as [[a b]|], q as [[c d]|]; cbn [opt_eqb fst snd]; split; try discriminate; auto.
  - intros H. apply andb_true_iff in H. destruct H as [H1 H2]. apply feqb_true in H1, H2. now subst.
  - intros H. inversion H. subst. now rewrite !feqb_refl.
Qed.
Definition all103 : list F103 := map (fun k => l103 (Z.of_nat k)) (seq 0 103).
Lemma all103_in (x : F103) : In x all103.
Proof.
  unfold all103. apply in_map_iff. exists (Z.to_nat (v103 x)).
  pose proof (val_range 103 x) as R. unfold v103. split.
  - rewrite Z2Nat.id by lia. apply gf_ext. unfold l103. rewrite val_mk. apply Z.mod_small. exact R.
  - apply in_seq. lia.
Qed.
Lemma all103_forall (p : F103 -> bool) : forallb p all103 = true -> forall x, p x = true.
Proof. intros H x. rewrite forallb_forall in H. apply H, all103_in. Qed.
Definition chord (p q : F97 * F97) : F97 * F97 :=
  let l := fmul (fsub (snd q) (snd p)) (finv (fsub (fst q) (fst p))) in
  let x := fsub (fsub (fmul l l) (fst p)) (fst q) in
  (x, fsub (fmul l (fsub (fst p) x)) (snd p)).
Definition tangent (p : F97 * F97) : F97 * F97 :=
  let l := fmul (fmul (fadd f1 (fadd f1 f1)) (fmul (fst p) (fst p))) (finv (fadd (snd p) (snd p))) in
  let x := fsub (fsub (fmul l l) (fst p)) (fst p) in
  (x, fsub (fmul l (fsub (fst p) x)) (snd p)).
Definition on_b (p : F97 * F97) : bool := feqb (fmul (snd p) (snd p)) (fadd (fmul (fst p) (fmul (fst p) (fst p))) ex_b).
Definition law1 (i : F103) : bool :=
  match ex_aff i with
  | None => feqb i f0
  | Some p => negb (feqb i f0) && on_b p && opt_eqb (ex_aff (fmul (fopp f1) i)) (Some (fst p, fopp (snd p)))
              && opt_eqb (ex_aff (fmul ex_lambda i)) (Some (fmul ex_zeta (fst p), snd p))
              && negb (feqb (snd p) f0) && opt_eqb (ex_aff (fadd i i)) (Some (tangent p))
  end%bool.
Definition law2 (i j : F103) : bool :=
  (implb (opt_eqb (ex_aff i) (ex_aff j)) (feqb i j) &&
   match ex_aff i, ex_aff j with
   | Some p, Some q => feqb (fst p) (fst q) || opt_eqb (ex_aff (fadd i j)) (Some (chord p q))
   | _, _ => true
   end)%bool.
Lemma law1_ok : forallb law1 all103 = true. Proof. vm_compute. reflexivity. Qed.
Lemma law2_ok : forallb (fun i => forallb (law2 i) all103) all103 = true. Proof. vm_compute. reflexivity. Qed.

Lemma two97 : (fadd f1 f1 : F97) <> f0.
Proof. intros H. apply (f_equal v97) in H. vm_compute in H. discriminate. Qed.

Section Laws.
  Add Field FF97e : (f_theory F97).
  Lemma ex_on (i : F103) p : ex_aff i = Some p -> on_curve ex_b p.
  Proof.
    intros A. pose proof (all103_forall _ law1_ok i) as L. unfold law1 in L. rewrite A in L.
    repeat (apply andb_true_iff in L; destruct L as [L ?]).
    match goal with H : on_b p = true |- _ => unfold on_b in H; apply feqb_true in H; exact H end.
  Qed.
  Definition ex_curve : CurveGroup F97 F103 ex_b ex_zeta ex_lambda.
  Proof.
    refine (Build_CurveGroup F97 F103 ex_b ex_zeta ex_lambda (FieldMod F103) ex_aff _ _ _ _ _ _ _ _).
    - reflexivity.
    - intros P N A. apply N. pose proof (all103_forall _ law1_ok P) as L. unfold law1 in L. rewrite A in L.
      apply feqb_true in L. exact L.
    - intros P Q A. pose proof (all103_forall _ (all103_forall _ law2_ok P) Q) as L. unfold law2 in L.
      apply andb_true_iff in L. destruct L as [L _]. rewrite (proj2 (opt_eqb_ok _ _) A) in L. cbn [implb] in L.
      apply feqb_true in L. exact L.
    - exact ex_on.
    - intros P p A. pose proof (all103_forall _ law1_ok P) as L. unfold law1 in L. rewrite A in L.
      repeat (apply andb_true_iff in L; destruct L as [L ?]).
      match goal with H : opt_eqb (ex_aff (fmul (fopp f1) P)) _ = true |- _ => apply opt_eqb_ok in H; exact H end.
    - intros P p A. pose proof (all103_forall _ law1_ok P) as L. unfold law1 in L. rewrite A in L.
      repeat (apply andb_true_iff in L; destruct L as [L ?]).
      match goal with H : opt_eqb (ex_aff (fmul ex_lambda P)) _ = true |- _ => apply opt_eqb_ok in H; exact H end.
    - intros P Q p q A B D. pose proof (all103_forall _ (all103_forall _ law2_ok P) Q) as L. unfold law2 in L.
      apply andb_true_iff in L. destruct L as [_ L]. rewrite A, B in L. apply orb_true_iff in L.
      destruct L as [L|L]; [apply feqb_true in L; contradiction|]. apply opt_eqb_ok in L.
      exists (chord p q). split; [exact L|].
      apply sum_chord; [exact two97|eapply ex_on; eauto|eapply ex_on; eauto|exact D|].
      exists (fmul (fsub (snd q) (snd p)) (finv (fsub (fst q) (fst p)))). cbn [chord fst snd]. repeat split.
      field. intros E. apply D. symmetry. now apply (fsub_eq_0 F97).
    - intros P p A Y. pose proof (all103_forall _ law1_ok P) as L. unfold law1 in L. rewrite A in L.
      repeat (apply andb_true_iff in L; destruct L as [L ?]).
      match goal with H : opt_eqb (ex_aff (fadd P P)) _ = true |- _ => apply opt_eqb_ok in H end.
      exists (tangent p). split; [assumption|].
      apply sum_tangent; [exact two97|eapply ex_on; eauto|exact Y|].
      exists (fmul (fmul (fadd f1 (fadd f1 f1)) (fmul (fst p) (fst p))) (finv (fadd (snd p) (snd p)))).
      cbn [tangent fst snd]. repeat split. field. apply dbl_nz; [exact two97|exact Y].
  Defined.
End Laws.
