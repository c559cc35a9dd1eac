(** Point gadgets follow the chord and tangent law. *)
From Coq Require Import List Arith NArith Bool Lia Ring Field.
From Verif Require Import FieldDef ModDef ArithModel ArithSpec ArithProofs GadgetModel GadgetSpec GadgetProofs PointSpec.
Import ListNotations.

Section Law.
  Variable F : Field.
  Add Field FFpt : (f_theory F).
  Open Scope f_scope.
  Variable b : F.
  Hypothesis two : (1 + 1 : F) <> 0.

  Lemma fopp0 : - (0 : F) = 0. Proof. ring. Qed.
  Lemma fopp_opp (x : F) : - - x = x. Proof. ring. Qed.
  Lemma quad_zero (A B C : F) : (forall X, A * (X * X) + B * X + C = 0) -> A = 0 /\ B = 0 /\ C = 0.
  Proof.
    intros H.
    assert (HC : C = 0) by (rewrite <- (H 0); ring).
    assert (H1 : A + B = 0) by (rewrite <- (H 1), HC; ring).
    assert (H2 : A - B = 0) by (rewrite <- (H (- (1))), HC; ring).
    assert (HA : A = 0).
    { apply (fmul_cancel_l F (1 + 1)); auto. transitivity ((A + B) + (A - B)); [ring|]. rewrite H1, H2. ring. }
    repeat split; auto. rewrite <- H1, HA. ring.
  Qed.
  Lemma sum_of_coefs p q r : sum_of b p q r <-> exists l m,
      snd p = l * fst p + m /\ snd q = l * fst q + m /\ - snd r = l * fst r + m /\
      l * l = fst p + fst q + fst r /\
      - ((1 + 1) * l * m) = fst p * fst q + fst p * fst r + fst q * fst r /\
      m * m - b = fst p * fst q * fst r.
  Proof.
    split.
    - intros (l & m & H1 & H2 & H3 & H). exists l, m. do 3 (split; [assumption|]).
      destruct (quad_zero (l * l - (fst p + fst q + fst r))
                 ((1 + 1) * l * m + (fst p * fst q + fst p * fst r + fst q * fst r))
                 (m * m - b - fst p * fst q * fst r)) as (A & B & C).
      { intros X. specialize (H X). apply fsub_eq_0 in H. rewrite <- fopp0. rewrite <- H. ring. }
      repeat split.
      + now apply fsub_eq_0.
      + apply fsub_eq_0. rewrite <- fopp0. rewrite <- B. ring.
      + now apply fsub_eq_0.
    - intros (l & m & H1 & H2 & H3 & A & B & C). exists l, m. do 3 (split; [assumption|]).
      intros X. apply fsub_eq_0.
      transitivity (- (l * l - (fst p + fst q + fst r)) * (X * X)
        + (- ((1 + 1) * l * m) - (fst p * fst q + fst p * fst r + fst q * fst r)) * X
        - (m * m - b - fst p * fst q * fst r)); [ring|]. rewrite A, B, C. ring.
  Qed.
  Lemma sum_on p q r : sum_of b p q r -> on_curve b r.
  Proof.
    intros (l & m & H1 & H2 & H3 & H). specialize (H (fst r)). rewrite <- H3 in H.
    unfold on_curve. symmetry. apply fsub_eq_0. transitivity (fst r * (fst r * fst r) + b - - snd r * - snd r); [ring|].
    rewrite H. ring.
  Qed.
  (** explicit slopes *)
  Lemma sum_chord p q r : on_curve b p -> on_curve b q -> fst p <> fst q ->
    (sum_of b p q r <-> exists l, l * (fst q - fst p) = snd q - snd p /\
       fst r = l * l - fst p - fst q /\ snd r = l * (fst p - fst r) - snd p).
  Proof.
    intros Op Oq D. rewrite sum_of_coefs. unfold on_curve in *. split.
    - intros (l & m & H1 & H2 & H3 & A & B & C). exists l. repeat split.
      + rewrite H1, H2. ring.
      + rewrite A. ring.
      + rewrite <- (fopp_opp (snd r)), H3, H1. ring.
    - intros (l & H1 & H2 & H3). exists l, (snd p - l * fst p).
      assert (N : fst q - fst p <> 0) by (intros E; apply D; symmetry; now apply fsub_eq_0).
      assert (E : fst p * fst p + fst p * fst q + fst q * fst q - l * l * (fst p + fst q)
                  - (1 + 1) * l * (snd p - l * fst p) = 0).
      { apply (fmul_cancel_l F (fst q - fst p)); auto.
        transitivity ((fst q * (fst q * fst q) + b) - (fst p * (fst p * fst p) + b)
          - (l * (fst q - fst p)) * (l * (fst q - fst p) + (1 + 1) * snd p)); [ring|].
        rewrite <- Op, <- Oq, H1. ring. }
      repeat split.
      + ring.
      + transitivity (snd p + (snd q - snd p)); [ring|]. rewrite <- H1. ring.
      + rewrite H3. ring.
      + rewrite H2. ring.
      + rewrite H2. apply fsub_eq_0. rewrite <- E. ring.
      + rewrite H2. apply fsub_eq_0.
        transitivity (snd p * snd p - fst p * (fst p * fst p) - b
           + fst p * (fst p * fst p + fst p * fst q + fst q * fst q - l * l * (fst p + fst q)
                  - (1 + 1) * l * (snd p - l * fst p))); [ring|].
        rewrite E, Op. ring.
  Qed.
  Lemma sum_tangent p r : on_curve b p -> snd p <> 0 ->
    (sum_of b p p r <-> exists l, l * (snd p + snd p) = (1 + (1 + 1)) * (fst p * fst p) /\
       fst r = l * l - fst p - fst p /\ snd r = l * (fst p - fst r) - snd p).
  Proof.
    intros Op Y. rewrite sum_of_coefs. unfold on_curve in *. split.
    - intros (l & m & H1 & _ & H3 & A & B & C). exists l. repeat split.
      + assert (R : fst r = l * l - fst p - fst p) by (rewrite A; ring).
        assert (M : m = snd p - l * fst p) by (rewrite H1; ring). rewrite R, M in B.
        apply fsub_eq_0. apply fsub_eq_0 in B. rewrite <- fopp0, <- B. ring.
      + rewrite A. ring.
      + rewrite <- (fopp_opp (snd r)), H3, H1. ring.
    - intros (l & H1 & H2 & H3). exists l, (snd p - l * fst p). repeat split.
      + ring.
      + ring.
      + rewrite H3. ring.
      + rewrite H2. ring.
      + rewrite H2. transitivity (- (l * (snd p + snd p)) + (1 + 1) * l * l * fst p); [ring|].
        rewrite H1. ring.
      + rewrite H2. transitivity (snd p * snd p - fst p * (l * (snd p + snd p)) + l * l * (fst p * fst p) - b); [ring|].
        rewrite H1, Op. ring.
  Qed.
  Lemma slope_unique (d l l' : F) : d <> 0 -> l * d = l' * d -> l = l'.
  Proof. intros N H. apply (fmul_cancel_l F d); auto. transitivity (l * d); [ring|]. rewrite H. ring. Qed.
  Lemma sum_fun p q r r' : on_curve b p -> on_curve b q -> (fst p <> fst q \/ p = q /\ snd p <> 0) ->
    sum_of b p q r -> sum_of b p q r' -> r = r'.
  Proof.
    intros Op Oq [D|[-> Y]] H H'.
    - apply sum_chord in H; auto. apply sum_chord in H'; auto.
      destruct H as (l & H1 & H2 & H3), H' as (l' & K1 & K2 & K3).
      assert (l = l') as <-.
      { apply (slope_unique (fst q - fst p)); [intros E; apply D; symmetry; now apply fsub_eq_0|]. now rewrite H1. }
      destruct r as [rx ry], r' as [rx' ry']. cbn [fst snd] in *. rewrite H3, K3, H2, K2. reflexivity.
    - apply sum_tangent in H; auto. apply sum_tangent in H'; auto.
      destruct H as (l & H1 & H2 & H3), H' as (l' & K1 & K2 & K3).
      assert (l = l') as <-.
      { apply (slope_unique (snd q + snd q)); [|now rewrite H1].
        intros E. apply Y. apply (fmul_cancel_l F (1 + 1)); auto. transitivity (snd q + snd q); [ring|]. rewrite E. ring. }
      destruct r as [rx ry], r' as [rx' ry']. cbn [fst snd] in *. rewrite H3, K3, H2, K2. reflexivity.
  Qed.
  Lemma sum_ex_chord p q : on_curve b p -> on_curve b q -> fst p <> fst q -> exists r, sum_of b p q r.
  Proof.
    intros Op Oq D. pose (l := (snd q - snd p) * finv (fst q - fst p)).
    exists (l * l - fst p - fst q, l * (fst p - (l * l - fst p - fst q)) - snd p).
    apply sum_chord; auto. exists l. cbn [fst snd]. repeat split. unfold l. field.
    intros E; apply D; symmetry; now apply fsub_eq_0.
  Qed.
  Lemma dbl_nz (y : F) : y <> 0 -> y + y <> 0.
  Proof. intros Y E. apply Y. apply (fmul_cancel_l F (1 + 1)); auto. transitivity (y + y); [ring|]. rewrite E. ring. Qed.
  Lemma sum_ex_tangent p : on_curve b p -> snd p <> 0 -> exists r, sum_of b p p r.
  Proof.
    intros Op Y. pose (l := (1 + (1 + 1)) * (fst p * fst p) * finv (snd p + snd p)).
    exists (l * l - fst p - fst p, l * (fst p - (l * l - fst p - fst p)) - snd p).
    apply sum_tangent; auto. exists l. cbn [fst snd]. repeat split. unfold l. field.
    now apply dbl_nz.
  Qed.
  Lemma sum_sym p q r : sum_of b p q r -> sum_of b q p r.
  Proof.
    intros (l & m & H1 & H2 & H3 & H). exists l, m. repeat split; auto. intros X. rewrite H. ring.
  Qed.
End Law.

Section PG.
  Variable F : Field.
  Add Field FFpg : (f_theory F).
  Open Scope f_scope.
  Variables b zeta : F.
  Hypothesis two : (1 + 1 : F) <> 0.

  (** ** constraints *)
  Lemma p_alloc_w r : holds (p_alloc F F 1 b None) r <-> exists p, on_curve b p /\ r = pwir p.
  Proof.
    unfold p_alloc. cbn [try_just gbind lift1 option_map]. rewrite e_alloc_square_bw. split.
    - intros (x & H). cbv beta iota in H. rewrite e_mul_bw, e_alloc_square_bw in H. destruct H as (y & H).
      cbv beta iota in H. rewrite enf_bw, ret_w in H. destruct H as [E ->]. exists (x, y). split; [|reflexivity].
      revert E. lin. cbn [wir ew]. intros E. unfold on_curve. cbn [fst snd]. symmetry. apply fsub_eq_0. rewrite <- E. ring.
    - intros ([x y] & O & ->). exists x. cbv beta iota. rewrite e_mul_bw, e_alloc_square_bw. exists y.
      cbv beta iota. rewrite enf_bw, ret_w. split; [|reflexivity].
      lin. cbn [wir ew]. unfold on_curve in O. cbn [fst snd] in O. rewrite O. ring.
  Qed.
  Lemma p_alloc_s (x y : F) s : simulate (p_alloc F F 1 b (Some (Some (x, y)))) s
    = if feqb (y * y) (x * (x * x) + b) then Some (phon (x, y), bump s 0 3 5) else None.
  Proof.
    unfold p_alloc. cbn [try_just gbind lift1 option_map fst snd]. sw.
    destruct (feqb (y * y) (x * (x * x) + b)) eqn:E.
    - apply feqb_true in E. rewrite enf_s by (lin; cbn [hon ew]; rewrite E; ring).
      cbn [simulate]. rewrite !bump_bump. reflexivity.
    - apply feqb_false in E. rewrite enf_s_bad; [reflexivity|].
      lin. cbn [hon ew]. intros K. apply E. symmetry. apply fsub_eq_0. rewrite <- K. ring.
  Qed.
  Lemma p_alloc_inf s : simulate (p_alloc F F 1 b (Some None)) s = None.
  Proof. reflexivity. Qed.
  Lemma p_constant_w p r : holds (p_constant F F 1 false (Some p)) r <-> r = pwir p.
  Proof. destruct p as [x y]. unfold p_constant. hw. apply ret_w. Qed.
  Lemma p_endo_w p r : holds (p_endo F F zeta (pwir p)) r <-> r = pwir (zeta * fst p, snd p).
  Proof.
    destruct p as [x y]. unfold p_endo. hw. cbn [c_value]. rewrite ret_w.
    replace (x * zeta) with (zeta * x) by ring. reflexivity.
  Qed.
  Lemma p_endo_s p s : simulate (p_endo F F zeta (phon p)) s = Some (phon (zeta * fst p, snd p), s).
  Proof.
    destruct p as [x y]. unfold p_endo. sw. cbn [c_value simulate].
    replace (x * zeta) with (zeta * x) by ring. reflexivity.
  Qed.
  Lemma p_negate_w p r : holds (p_negate F F (pwir p)) r <-> r = pwir (fst p, - snd p).
  Proof. destruct p as [x y]. unfold p_negate. hw. apply ret_w. Qed.
  Lemma p_negate_s p s : simulate (p_negate F F (phon p)) s = Some (phon (fst p, - snd p), s).
  Proof. destruct p as [x y]. unfold p_negate. sw. reflexivity. Qed.
  Lemma select_bw (c a d : F) {B : Type} (f : elem F F -> G F F B) r :
    holds (gbind (b_select F F (bwir c) (wir a) (wir d)) f) r <-> holds (f (wir (a + c * (d - a)))) r.
  Proof. apply holds_det. intros y. apply b_select_w. Qed.
  Lemma p_cond_endo_w p c r : holds (p_cond_endo F F zeta (pwir p) (bwir (fe F c))) r
    <-> r = pwir (if c then zeta * fst p else fst p, snd p).
  Proof.
    destruct p as [x y]. unfold p_cond_endo. hw. cbn [c_value]. rewrite select_bw, ret_w, select_val.
    replace (x * zeta) with (zeta * x) by ring. reflexivity.
  Qed.
  Lemma p_cond_endo_s p c s : simulate (p_cond_endo F F zeta (phon p) (bhon c)) s
    = Some (phon (if c then zeta * fst p else fst p, snd p), bump s 0 1 2).
  Proof.
    destruct p as [x y]. unfold p_cond_endo. rewrite sim_bind. cbn [phon px py fst snd]. rewrite e_scale_s, sim_bind, b_select_s.
    cbn [simulate c_value]. replace (x * zeta) with (zeta * x) by ring. reflexivity.
  Qed.
  Lemma p_cond_negate_w p c r : holds (p_cond_negate F F (pwir p) (bwir (fe F c))) r
    <-> r = pwir (fst p, if c then - snd p else snd p).
  Proof.
    destruct p as [x y]. unfold p_cond_negate. hw. rewrite select_bw, ret_w, select_val. reflexivity.
  Qed.
  Lemma p_cond_negate_s p c s : simulate (p_cond_negate F F (phon p) (bhon c)) s
    = Some (phon (fst p, if c then - snd p else snd p), bump s 0 1 2).
  Proof.
    destruct p as [x y]. unfold p_cond_negate. rewrite sim_bind. cbn [phon px py fst snd]. rewrite e_negate_s, sim_bind, b_select_s.
    reflexivity.
  Qed.

  Lemma p_double_raw p r : holds (p_double F F (pwir p)) r <-> exists l,
    l * (snd p + snd p) = (1 + (1 + 1)) * (fst p * fst p) /\
    r = pwir (l * l - fst p - fst p, l * (fst p - (l * l - fst p - fst p)) - snd p).
  Proof.
    destruct p as [x y]. unfold p_double, e_double, e_square. cbn [fst snd]. hw. cbn [c_value]. rewrite e_div_bw. split.
    - intros (l & E & H). revert H. hw. rewrite ret_w. intros ->. exists l. split.
      + rewrite E. ring.
      + unfold pwir. cbn [fst snd]. replace (l * l - (x + x)) with (l * l - x - x) by ring. reflexivity.
    - intros (l & E & ->). exists l. split; [rewrite E; ring|]. hw. rewrite ret_w.
      unfold pwir. cbn [fst snd]. replace (l * l - (x + x)) with (l * l - x - x) by ring. reflexivity.
  Qed.
  Lemma p_double_w p r : on_curve b p -> snd p <> 0 ->
    (holds (p_double F F (pwir p)) r <-> exists q, sum_of b p p q /\ r = pwir q).
  Proof.
    intros O Y. rewrite p_double_raw. split.
    - intros (l & E & ->). eexists. split; [|reflexivity]. apply sum_tangent; auto. exists l. cbn [fst snd]. auto.
    - intros ([qx qy] & S & ->). apply sum_tangent in S; auto. destruct S as (l & E & Ex & Ey). cbn [fst snd] in *.
      exists l. split; auto. now rewrite Ey, Ex.
  Qed.
  Lemma p_double_unsat p r : snd p = 0 -> fst p <> 0 -> (1 + (1 + 1) : F) <> 0 -> ~ holds (p_double F F (pwir p)) r.
  Proof.
    intros Y X T H. apply p_double_raw in H. destruct H as (l & E & _). rewrite Y in E.
    assert (K : (1 + (1 + 1)) * (fst p * fst p) = 0) by (rewrite <- E; ring).
    apply fmul_integral in K. destruct K as [K|K]; [auto|]. apply fmul_integral in K. tauto.
  Qed.
  Lemma p_double_s p s : on_curve b p -> snd p <> 0 ->
    exists q, sum_of b p p q /\ simulate (p_double F F (phon p)) s = Some (phon q, bump s 0 4 8).
  Proof.
    intros O Y. destruct p as [x y]. cbn [fst snd] in *.
    pose (l := (x * x * (1 + (1 + 1))) * finv (y + y)).
    exists (l * l - x - x, l * (x - (l * l - x - x)) - y). split.
    - apply sum_tangent; auto. exists l. cbn [fst snd]. repeat split. unfold l. field. now apply dbl_nz.
    - unfold p_double, e_double, e_square. sw. rewrite e_div_s.
      rewrite (proj2 (feqb_false F (y + y) 0)) by (now apply dbl_nz). cbv beta iota. sw. cbn [c_value] in *.
      fold l. rewrite !bump_bump. cbn [simulate]. unfold phon. cbn [fst snd].
      replace (l * l - (x + x)) with (l * l - x - x) by ring. reflexivity.
  Qed.
  Lemma p_double_s_bad p s : snd p = 0 -> simulate (p_double F F (phon p)) s = None.
  Proof.
    destruct p as [x y]. cbn [snd]. intros ->. unfold p_double, e_double, e_square. sw. rewrite e_div_s.
    rewrite (proj2 (feqb_true F (0 + 0) 0)) by ring. reflexivity.
  Qed.

  Definition nz_w (nz : option F) : option (elem F F) := option_map wir nz.
  Definition nz_h (nz : option F) : option (elem F F) := option_map hon nz.
  Lemma p_add_raw p q nz r : holds (p_add_incomplete F F (pwir p) (pwir q) (nz_w nz)) r <-> exists l,
    l * (fst q - fst p) = snd q - snd p /\
    r = (pwir (l * l - fst p - fst q, l * (fst p - (l * l - fst p - fst q)) - snd p),
         nz_w (option_map (fun a => a * (fst q - fst p)) nz)).
  Proof.
    destruct p as [x y], q as [x' y']. unfold p_add_incomplete, e_square. cbn [fst snd pwir px py]. rewrite e_sub_bw.
    assert (K : forall (f : option (elem F F) -> G F F (point F F * option (elem F F))),
      holds (gbind (match nz_w nz with None => GRet None | Some e => gbind (e_mul F F e (wir (x' - x))) (fun e' => GRet (Some e')) end) f) r
      <-> holds (f (nz_w (option_map (fun a => a * (x' - x)) nz))) r).
    { intros f. destruct nz as [a|]; cbn [nz_w option_map].
      - apply holds_det. intros y0. rewrite e_mul_bw. apply ret_w.
      - cbn [gbind]. reflexivity. }
    rewrite K. hw. rewrite e_div_bw. split.
    - intros (l & E & H). revert H. hw. rewrite ret_w. intros ->. exists l. auto.
    - intros (l & E & ->). exists l. split; auto. hw. now apply ret_w.
  Qed.
  Lemma p_add_w p q nz r : on_curve b p -> on_curve b q -> fst p <> fst q ->
    (holds (p_add_incomplete F F (pwir p) (pwir q) (nz_w nz)) r <->
     exists s, sum_of b p q s /\ r = (pwir s, nz_w (option_map (fun a => a * (fst q - fst p)) nz))).
  Proof.
    intros Op Oq D. rewrite p_add_raw. split.
    - intros (l & E & ->). eexists. split; [|reflexivity]. apply sum_chord; auto. exists l. cbn [fst snd]. auto.
    - intros ([sx sy] & S & ->). apply sum_chord in S; auto. destruct S as (l & E & Ex & Ey). cbn [fst snd] in *.
      exists l. split; auto. now rewrite Ey, Ex.
  Qed.
  (** equal x but different y: unsatisfiable; equal points: any slope is allowed *)
  Lemma p_add_opposite p q nz r : fst p = fst q -> snd p <> snd q ->
    ~ holds (p_add_incomplete F F (pwir p) (pwir q) (nz_w nz)) r.
  Proof.
    intros X Y H. apply p_add_raw in H. destruct H as (l & E & _). apply Y. symmetry. apply fsub_eq_0.
    rewrite <- E, X. ring.
  Qed.
  Lemma p_add_same p nz r : holds (p_add_incomplete F F (pwir p) (pwir p) (nz_w nz)) r <-> exists l,
    r = (pwir (l * l - fst p - fst p, l * (fst p - (l * l - fst p - fst p)) - snd p), nz_w (option_map (fun _ => 0) nz)).
  Proof.
    rewrite p_add_raw.
    assert (E : option_map (fun a => a * (fst p - fst p)) nz = option_map (fun _ => 0) nz).
    { destruct nz; cbn; auto. f_equal. ring. }
    rewrite E. split; intros (l & H).
    - destruct H as [_ H]. eauto.
    - exists l. split; auto. ring.
  Qed.
  Lemma p_add_s p q nz s : on_curve b p -> on_curve b q -> fst p <> fst q ->
    exists t, sum_of b p q t /\
      simulate (p_add_incomplete F F (phon p) (phon q) (nz_h nz)) s
      = Some (phon t, nz_h (option_map (fun a => a * (fst q - fst p)) nz),
              match nz with None => bump s 0 3 6 | Some _ => bump s 0 4 8 end).
  Proof.
    intros Op Oq D. destruct p as [x y], q as [x' y']. cbn [fst snd] in *.
    pose (l := (y' - y) * finv (x' - x)).
    assert (N : x' - x <> 0) by (intros E; apply D; symmetry; now apply fsub_eq_0).
    exists (l * l - x - x', l * (x - (l * l - x - x')) - y). split.
    - apply sum_chord; auto. exists l. cbn [fst snd]. repeat split. unfold l. field. exact N.
    - unfold p_add_incomplete, e_square.
      destruct nz as [a|]; cbn [nz_h option_map gbind].
      + sw. cbn [simulate]. sw. rewrite e_div_s, (proj2 (feqb_false F _ _) N). cbv beta iota. sw. fold l. cbn [simulate].
        rewrite !bump_bump. reflexivity.
      + sw. rewrite e_div_s, (proj2 (feqb_false F _ _) N). cbv beta iota. sw. fold l. cbn [simulate].
        rewrite !bump_bump. reflexivity.
  Qed.
  Lemma p_add_s_bad p q s : fst p = fst q -> simulate (p_add_incomplete F F (phon p) (phon q) None) s = None.
  Proof.
    destruct p as [x y], q as [x' y']. cbn [fst]. intros ->. unfold p_add_incomplete. cbn [gbind].
    rewrite sim_bind. cbn [phon px py fst snd]. rewrite e_sub_s. rewrite sim_bind, e_sub_s, sim_bind, e_div_s.
    rewrite (proj2 (feqb_true F (x' - x') 0)) by ring. reflexivity.
  Qed.

  Definition da_out (p q : F * F) (l1 t2 : F) : F * F :=
    let xr := l1 * l1 - fst p - fst q in
    let l2 := t2 - l1 in
    let xs := l2 * l2 - xr - fst p in (xs, l2 * (fst p - xs) - snd p).
  Lemma p_da_raw p q r : holds (p_double_and_add F F (pwir p) (pwir q)) r <-> exists l1 t2,
    l1 * (fst q - fst p) = snd q - snd p /\
    t2 * (fst p - (l1 * l1 - fst p - fst q)) = snd p + snd p /\
    r = pwir (da_out p q l1 t2).
  Proof.
    destruct p as [x y], q as [x' y']. unfold p_double_and_add, e_square, e_double. cbn [fst snd]. hw.
    rewrite e_div_bw. split.
    - intros (l1 & E1 & H). revert H. hw. rewrite e_div_bw. intros (t2 & E2 & H). revert H. hw. rewrite ret_w.
      intros ->. exists l1, t2. auto.
    - intros (l1 & t2 & E1 & E2 & ->). exists l1. split; auto. hw. rewrite e_div_bw. exists t2. split; auto.
      hw. now apply ret_w.
  Qed.
  Lemma p_da_w p q r : on_curve b p -> on_curve b q -> fst p <> fst q -> snd p <> 0 ->
    (holds (p_double_and_add F F (pwir p) (pwir q)) r <->
     exists t s, sum_of b p q t /\ fst p <> fst t /\ sum_of b p t s /\ r = pwir s).
  Proof.
    intros Op Oq D Y. rewrite p_da_raw. split.
    - intros (l1 & t2 & E1 & E2 & ->).
      pose (t := (l1 * l1 - fst p - fst q, l1 * (fst p - (l1 * l1 - fst p - fst q)) - snd p)).
      assert (T : sum_of b p q t) by (apply sum_chord; auto; exists l1; cbn [fst snd t]; auto).
      assert (N : fst p <> fst t).
      { intros E. cbn [fst t] in E. rewrite <- E in E2. apply (dbl_nz F two (snd p) Y). rewrite <- E2. ring. }
      exists t, (da_out p q l1 t2). split; [exact T|]. split; [exact N|]. split; [|reflexivity].
      apply sum_chord; auto. { eapply sum_on; eauto. }
      exists (t2 - l1). unfold da_out. cbn [fst snd t]. repeat split.
      + transitivity (l1 * (fst p - (l1 * l1 - fst p - fst q)) - t2 * (fst p - (l1 * l1 - fst p - fst q))); [ring|].
        rewrite E2. ring.
      + ring.
    - intros ([tx ty] & [sx sy] & T & N & S & ->). assert (Ot := sum_on _ _ _ _ _ T). apply sum_chord in T; auto.
      destruct T as (l1 & E1 & Tx & Ty). cbn [fst snd] in *. apply sum_chord in S; auto.
      destruct S as (l2 & E2 & Sx & Sy). cbn [fst snd] in *.
      exists l1, (l2 + l1). split; auto. rewrite <- Tx. split.
      + transitivity (- (l2 * (tx - fst p)) + l1 * (fst p - tx)); [ring|]. rewrite E2, Ty. ring.
      + unfold da_out. rewrite <- Tx. replace (l2 + l1 - l1) with l2 by ring.
        replace (l2 * l2 - tx - fst p) with (l2 * l2 - fst p - tx) by ring. rewrite <- Sx, <- Sy. reflexivity.
  Qed.
  Lemma p_da_s p q t st : on_curve b p -> on_curve b q -> fst p <> fst q -> sum_of b p q t -> fst p <> fst t ->
    exists s, sum_of b p t s /\
      simulate (p_double_and_add F F (phon p) (phon q)) st = Some (phon s, bump st 0 5 10).
  Proof.
    intros Op Oq D T N. assert (Ot := sum_on _ _ _ _ _ T).
    destruct (sum_ex_chord F b two p t Op Ot N) as (s & S). exists s. split; [exact S|].
    apply sum_chord in T; auto. destruct T as (l1 & E1 & Tx & Ty). apply sum_chord in S; auto.
    destruct S as (l2 & E2 & Sx & Sy).
    destruct p as [x y], q as [x' y'], t as [tx ty], s as [sx sy]. cbn [fst snd] in *.
    assert (N1 : x' - x <> 0) by (intros E; apply D; symmetry; now apply fsub_eq_0).
    assert (N2 : x - tx <> 0) by (intros E; apply N; now apply fsub_eq_0).
    assert (L1 : (y' - y) * finv (x' - x) = l1).
    { apply (slope_unique F (x' - x)); auto. rewrite E1. field. exact N1. }
    assert (L2 : (y + y) * finv (x - tx) - l1 = l2).
    { apply (slope_unique F (tx - x)); auto. { intros E. apply N2. transitivity (- (tx - x)); [ring|]. rewrite E. ring. }
      rewrite E2, Ty. field. exact N2. }
    unfold p_double_and_add, e_square, e_double. sw.
    rewrite e_div_s, (proj2 (feqb_false F _ _) N1), L1. cbv beta iota. sw. rewrite <- Tx.
    rewrite e_div_s, (proj2 (feqb_false F _ _) N2). cbv beta iota. sw. rewrite L2.
    replace (l2 * l2 - tx - x) with (l2 * l2 - x - tx) by ring. rewrite <- Sx, <- Sy. cbn [simulate].
    rewrite !bump_bump. reflexivity.
  Qed.
End PG.
