(** A concrete curve group for the examples: y^2 = x^3 + 13 over F241 has prime
    order 211; multiples of (3, 47) are tabulated and the laws checked by
    computation over all points. *)
From Coq Require Import List Arith ZArith Bool Lia Ring Field.
From Verif Require Import FieldDef GF ModDef PointSpec PointProofs.
Import ListNotations.

Lemma check_241 : good 241. Proof. apply check_good. vm_compute. reflexivity. Qed.
Definition F241 : Field := GF 241 check_241.
Definition l241 (z : Z) : F241 := mk 241 check_241 z.
Definition v241 (x : F241) : Z := val 241 x.
Lemma check_211 : good 211. Proof. apply check_good. vm_compute. reflexivity. Qed.
Definition F211 : Field := GF 211 check_211.
Definition l211 (z : Z) : F211 := mk 211 check_211 z.
Definition v211 (x : F211) : Z := val 211 x.

Definition nx_tab : list (Z * Z) := [(3,47); (226,112); (60,199); (78,235); (62,165); (180,81); (107,189); (167,174); (26,113); (197,25); (29,28); (68,121); (145,62); (45,47); (193,194); (90,62); (138,71); (46,181); (163,183); (239,138); (176,65); (21,57); (134,148); (14,180); (175,130); (224,142); (142,71); (16,112); (6,179); (240,129); (117,121); (31,142); (110,115); (158,100); (200,66); (53,117); (52,29); (150,7); (98,10); (204,115); (208,181); (177,199); (56,120); (202,170); (4,42); (18,28); (92,130); (119,10); (139,13); (84,154); (67,44); (162,32); (157,13); (201,100); (35,183); (206,235); (194,213); (227,99); (228,60); (198,6); (222,25); (17,180); (10,7); (59,32); (13,102); (195,102); (55,154); (108,66); (211,138); (207,165); (63,216); (215,111); (168,126); (43,58); (213,76); (66,113); (25,148); (132,29); (133,44); (33,102); (41,44); (72,117); (230,65); (49,81); (149,128); (210,61); (24,231); (123,141); (32,103); (12,160); (220,174); (146,57); (116,117); (102,154); (20,32); (57,29); (74,57); (159,189); (95,67); (82,93); (81,234); (186,228); (174,175); (76,176); (216,52); (216,189); (76,65); (174,66); (186,13); (81,7); (82,148); (95,174); (159,52); (74,184); (57,212); (20,209); (102,87); (116,124); (146,184); (220,67); (12,81); (32,138); (123,100); (24,10); (210,180); (149,113); (49,160); (230,176); (72,124); (41,197); (33,139); (133,197); (132,212); (25,93); (66,128); (213,165); (43,183); (168,115); (215,130); (63,25); (207,76); (211,103); (108,175); (55,87); (195,139); (13,139); (59,209); (10,234); (17,61); (222,216); (198,235); (228,181); (227,142); (194,28); (206,6); (35,58); (201,141); (157,228); (162,209); (67,197); (84,87); (139,228); (119,231); (92,111); (18,213); (4,199); (202,71); (56,121); (177,42); (208,60); (204,126); (98,231); (150,234); (52,212); (53,124); (200,175); (158,141); (110,126); (31,99); (117,120); (240,112); (6,62); (16,129); (142,170); (224,99); (175,111); (14,61); (134,93); (21,184); (176,176); (239,103); (163,58); (46,60); (138,170); (90,179); (193,47); (45,194); (145,179); (68,120); (29,213); (197,216); (26,128); (167,67); (107,52); (180,160); (62,76); (78,6); (60,42); (226,129); (3,194)]%Z.
Definition nx_tab241 : list (F241 * F241) := map (fun t => (l241 (fst t), l241 (snd t))) nx_tab.

Definition nx_zeta : F241 := l241 15.
Definition nx_lambda : F211 := l211 14.
Definition nx_b : F241 := l241 13.

(** coordinates of i * (3, 47) *)
Definition nx_aff (i : F211) : option (F241 * F241) :=
  match Z.to_nat (v211 i) with O => None | S k => nth_error nx_tab241 k end.

(** computable versions of the laws *)
Definition nopt_eqb (p q : option (F241 * F241)) : bool :=
  match p, q with
  | None, None => true
  | Some a, Some b => (feqb (fst a) (fst b) && feqb (snd a) (snd b))%bool
  | _, _ => false
  end.
Lemma nopt_eqb_ok p q : nopt_eqb p q = true <-> p = q.
Proof.
  destruct p as [[a b]|], q as [[c d]|]; cbn [nopt_eqb fst snd]; split; try discriminate; auto.
  - intros H. apply andb_true_iff in H. destruct H as [H1 H2]. apply feqb_true in H1, H2. now subst.
  - intros H. inversion H. subst. now rewrite !feqb_refl.
Qed.
Definition all211 : list F211 := map (fun k => l211 (Z.of_nat k)) (seq 0 211).
Lemma all211_in (x : F211) : In x all211.
Proof.
  unfold all211. apply in_map_iff. exists (Z.to_nat (v211 x)).
  pose proof (val_range 211 x) as R. unfold v211. split.
  - rewrite Z2Nat.id by lia. apply gf_ext. unfold l211. rewrite val_mk. apply Z.mod_small. exact R.
  - apply in_seq. lia.
Qed.
Lemma all211_forall (p : F211 -> bool) : forallb p all211 = true -> forall x, p x = true.
Proof. intros H x. rewrite forallb_forall in H. apply H, all211_in. Qed.
Definition nchord (p q : F241 * F241) : F241 * F241 :=
  let l := fmul (fsub (snd q) (snd p)) (finv (fsub (fst q) (fst p))) in
  let x := fsub (fsub (fmul l l) (fst p)) (fst q) in
  (x, fsub (fmul l (fsub (fst p) x)) (snd p)).
Definition ntangent (p : F241 * F241) : F241 * F241 :=
  let l := fmul (fmul (fadd f1 (fadd f1 f1)) (fmul (fst p) (fst p))) (finv (fadd (snd p) (snd p))) in
  let x := fsub (fsub (fmul l l) (fst p)) (fst p) in
  (x, fsub (fmul l (fsub (fst p) x)) (snd p)).
Definition non_b (p : F241 * F241) : bool := feqb (fmul (snd p) (snd p)) (fadd (fmul (fst p) (fmul (fst p) (fst p))) nx_b).
Definition nlaw1 (i : F211) : bool :=
  match nx_aff i with
  | None => feqb i f0
  | Some p => negb (feqb i f0) && non_b p && nopt_eqb (nx_aff (fmul (fopp f1) i)) (Some (fst p, fopp (snd p)))
              && nopt_eqb (nx_aff (fmul nx_lambda i)) (Some (fmul nx_zeta (fst p), snd p))
              && negb (feqb (snd p) f0) && nopt_eqb (nx_aff (fadd i i)) (Some (ntangent p))
  end%bool.
Definition nlaw2 (i j : F211) : bool :=
  (implb (nopt_eqb (nx_aff i) (nx_aff j)) (feqb i j) &&
   match nx_aff i, nx_aff j with
   | Some p, Some q => feqb (fst p) (fst q) || nopt_eqb (nx_aff (fadd i j)) (Some (nchord p q))
   | _, _ => true
   end)%bool.
Lemma nlaw1_ok : forallb nlaw1 all211 = true. Proof. vm_compute. reflexivity. Qed.
Lemma nlaw2_ok : forallb (fun i => forallb (nlaw2 i) all211) all211 = true. Proof. vm_compute. reflexivity. Qed.

Lemma two241 : (fadd f1 f1 : F241) <> f0.
Proof. intros H. apply (f_equal v241) in H. vm_compute in H. discriminate. Qed.

Section NLaws.
  Add Field FF241e : (f_theory F241).
  Lemma nx_on (i : F211) p : nx_aff i = Some p -> on_curve nx_b p.
  Proof.
    intros A. pose proof (all211_forall _ nlaw1_ok i) as L. unfold nlaw1 in L. rewrite A in L.
    repeat (apply andb_true_iff in L; destruct L as [L ?]).
    match goal with H : non_b p = true |- _ => unfold non_b in H; apply feqb_true in H; exact H end.
  Qed.
  Definition nx_curve : CurveGroup F241 F211 nx_b nx_zeta nx_lambda.
  Proof.
    refine (Build_CurveGroup F241 F211 nx_b nx_zeta nx_lambda (FieldMod F211) nx_aff _ _ _ _ _ _ _ _).
    - reflexivity.
    - intros P N A. apply N. pose proof (all211_forall _ nlaw1_ok P) as L. unfold nlaw1 in L. rewrite A in L.
      apply feqb_true in L. exact L.
    - intros P Q A. pose proof (all211_forall _ (all211_forall _ nlaw2_ok P) Q) as L. unfold nlaw2 in L.
      apply andb_true_iff in L. destruct L as [L _]. rewrite (proj2 (nopt_eqb_ok _ _) A) in L. cbn [implb] in L.
      apply feqb_true in L. exact L.
    - exact nx_on.
    - intros P p A. pose proof (all211_forall _ nlaw1_ok P) as L. unfold nlaw1 in L. rewrite A in L.
      repeat (apply andb_true_iff in L; destruct L as [L ?]).
      match goal with H : nopt_eqb (nx_aff (fmul (fopp f1) P)) _ = true |- _ => apply nopt_eqb_ok in H; exact H end.
    - intros P p A. pose proof (all211_forall _ nlaw1_ok P) as L. unfold nlaw1 in L. rewrite A in L.
      repeat (apply andb_true_iff in L; destruct L as [L ?]).
      match goal with H : nopt_eqb (nx_aff (fmul nx_lambda P)) _ = true |- _ => apply nopt_eqb_ok in H; exact H end.
    - intros P Q p q A B D. pose proof (all211_forall _ (all211_forall _ nlaw2_ok P) Q) as L. unfold nlaw2 in L.
      apply andb_true_iff in L. destruct L as [_ L]. rewrite A, B in L. apply orb_true_iff in L.
      destruct L as [L|L]; [apply feqb_true in L; contradiction|]. apply nopt_eqb_ok in L.
      exists (nchord p q). split; [exact L|].
      apply sum_chord; [exact two241|eapply nx_on; eauto|eapply nx_on; eauto|exact D|].
      exists (fmul (fsub (snd q) (snd p)) (finv (fsub (fst q) (fst p)))). cbn [nchord fst snd]. repeat split.
      field. intros E. apply D. symmetry. now apply (fsub_eq_0 F241).
    - intros P p A Y. pose proof (all211_forall _ nlaw1_ok P) as L. unfold nlaw1 in L. rewrite A in L.
      repeat (apply andb_true_iff in L; destruct L as [L ?]).
      match goal with H : nopt_eqb (nx_aff (fadd P P)) _ = true |- _ => apply nopt_eqb_ok in H end.
      exists (ntangent p). split; [assumption|].
      apply sum_tangent; [exact two241|eapply nx_on; eauto|exact Y|].
      exists (fmul (fmul (fadd f1 (fadd f1 f1)) (fmul (fst p) (fst p))) (finv (fadd (snd p) (snd p)))).
      cbn [ntangent fst snd]. repeat split. field. apply dbl_nz; [exact two241|exact Y].
  Defined.
End NLaws.
