(** Endoscalars: allocation, lifting, extraction, scaling. *)
From Coq Require Import List Arith NArith Bool Lia Ring Field.
From Verif Require Import FieldDef ModDef ArithModel ArithSpec ArithProofs GadgetModel GadgetSpec GadgetProofs
  PointSpec PointProofs EndoSpec.
Import ListNotations.

Section Lift.
  Variable F : Field.
  Add Field FFen : (f_theory F).
  Open Scope f_scope.
  Variable zeta : F.

  (** ** bits *)
  Definition ewir (bs : list bool) : endo F := mk_endo F (map (fe F) bs) None.
  Definition ehon (n : nat) (v : N) : endo F := mk_endo F (map (fun i => fe F (nbit v i)) (seq 0 n)) (Some v).
  Lemma en_bools_w bs : en_bools F (ewir bs) = map (fun b => bwir (fe F b)) bs.
  Proof.
    unfold en_bools, ewir. cbn [en_bits en_value lift1 option_map].
    assert (K : forall l s, map (fun iw : nat * F => mk_bool F (snd iw) None) (combine (seq s (length l)) l) = map bwir l).
    { induction l as [|w l IH]; intros s; cbn; auto. now rewrite IH. }
    rewrite map_length. rewrite <- (map_length (fe F) bs), K, map_map. reflexivity.
  Qed.
  Lemma en_bools_s n v : en_bools F (ehon n v) = map (fun i => bhon (nbit v i)) (seq 0 n).
  Proof.
    unfold en_bools, ehon. cbn [en_bits en_value lift1 option_map]. rewrite map_length, seq_length.
    generalize 0%nat. induction n as [|n IH]; intros s; cbn [seq map combine]; auto. now rewrite IH.
  Qed.
  Lemma en_alloc_go_w is r : holds (en_alloc_go F F is None) r <-> exists bs, length bs = length is /\ r = map (fe F) bs.
  Proof.
    revert r. induction is as [|i is IH]; intros r; cbn [en_alloc_go].
    - rewrite ret_w. split.
      + intros ->. exists []. auto.
      + intros ([|b bs] & L & ->); [reflexivity|discriminate].
    - cbn [lift1 option_map]. rewrite holds_bind. split.
      + intros (x & Hx & H). apply b_alloc_w in Hx. destruct Hx as (b & ->). apply holds_bind in H.
        destruct H as (t & Ht & H). apply IH in Ht. destruct Ht as (bs & L & ->). apply ret_w in H. subst r.
        exists (b :: bs). cbn. auto.
      + intros ([|b bs] & L & ->); [discriminate|]. exists (bwir (fe F b)). split; [apply b_alloc_w; eauto|].
        apply holds_bind. exists (map (fe F) bs). split; [apply IH; exists bs; cbn in L; auto|]. now apply ret_w.
  Qed.
  Lemma en_alloc_w n r : holds (en_alloc F F n None) r <-> exists bs, length bs = n /\ r = ewir bs.
  Proof.
    unfold en_alloc. rewrite holds_bind. split.
    - intros (x & Hx & H). apply en_alloc_go_w in Hx. destruct Hx as (bs & L & ->). apply ret_w in H. rewrite seq_length in L. eauto.
    - intros (bs & L & ->). exists (map (fe F) bs). split; [|now apply ret_w].
      apply en_alloc_go_w. exists bs. now rewrite seq_length.
  Qed.
  Lemma en_alloc_go_s is v s : simulate (en_alloc_go F F is (Some v)) s
    = Some (map (fun i => fe F (nbit v i)) is, bump s 0 (length is) (2 * length is)).
  Proof.
    revert s. induction is as [|i is IH]; intros s; cbn [en_alloc_go].
    - cbn. now rewrite bump_0.
    - cbn [lift1 option_map]. rewrite sim_bind, b_alloc_s, sim_bind, IH. cbn [simulate map length].
      rewrite bump_bump. apply sim_eq; lia.
  Qed.
  Lemma en_alloc_s n v s : simulate (en_alloc F F n (Some v)) s = Some (ehon n v, bump s 0 n (2 * n)).
  Proof. unfold en_alloc. rewrite sim_bind, en_alloc_go_s, seq_length. reflexivity. Qed.

  (** ** lift *)
  Lemma fadd_cancel_r (c a b : F) : a + c = b + c -> a = b.
  Proof. intros H. transitivity (a + c - c); [ring|]. rewrite H. ring. Qed.
  Fixpoint lift_bits (bs : list bool) (c : F) : F :=
    match bs with n :: e :: r => lift_bits r (c + c + digit zeta n e) | _ => c end.
  Lemma pair_ind (P : list bool -> Prop) :
    P [] -> (forall b, P [b]) -> (forall a b l, P l -> P (a :: b :: l)) -> forall l, P l.
  Proof.
    intros H0 H1 H2. fix go 1. intros [|a [|b l]]; [exact H0|exact (H1 a)|exact (H2 a b l (go l))].
  Qed.
  Lemma b_and_bw (a b : F) {B : Type} (f : bool_g F -> G F F B) r :
    holds (gbind (b_and F F (bwir a) (bwir b)) f) r <-> holds (f (bwir (a * b))) r.
  Proof. apply holds_det. intros y. apply b_and_w. Qed.
  Definition lift_acc_step (acc : F) (n e : bool) : F :=
    acc + acc + fe F n * - (1 + 1) + fe F e * (zeta - 1) + fe F n * fe F e * (1 - zeta + (1 - zeta)).
  Lemma lift_step_total acc c n e :
    lift_acc_step acc n e + (c + c + 1) = (acc + c) + (acc + c) + digit zeta n e.
  Proof. unfold lift_acc_step, digit. destruct n, e; cbn [fe]; ring. Qed.
  Lemma en_lift_go_w bs : forall (acc c : F) r,
    holds (en_lift_go F F zeta (map (fun b => bwir (fe F b)) bs) (wir acc) c) r
    <-> exists acc' c', r = (wir acc', c') /\ acc' + c' = lift_bits bs (acc + c) /\
                        c' = fold_left (fun c _ => c + c + 1) (seq 0 (length bs / 2)) c.
  Proof.
    induction bs as [|b|n e bs IH] using pair_ind; intros acc c r.
    - cbn [map en_lift_go lift_bits length]. rewrite ret_w. split; [intros ->; eauto|]. intros (a' & c' & -> & E & Ec).
      cbn in Ec. subst c'. do 2 f_equal. apply (fadd_cancel_r c). exact E.
    - cbn [map en_lift_go lift_bits length]. rewrite ret_w. split; [intros ->; eauto|]. intros (a' & c' & -> & E & Ec).
      cbn in Ec. subst c'. do 2 f_equal. apply (fadd_cancel_r c). exact E.
    - cbn [map en_lift_go lift_bits]. unfold e_double. rewrite b_and_bw, ?b_elem_w. hw. rewrite ?b_elem_w. hw. cbn [c_value].
      rewrite IH.
      assert (L : (length (n :: e :: bs) / 2 = S (length bs / 2))%nat).
      { cbn [length]. replace (S (S (length bs))) with (length bs + 1 * 2)%nat by lia. rewrite Nat.div_add by lia. lia. }
      rewrite L. cbn [seq fold_left]. rewrite <- seq_shift.
      assert (FL : forall (l : list nat) (x : F), fold_left (fun (c : F) (_ : nat) => c + c + 1) (map S l) x = fold_left (fun (c : F) (_ : nat) => c + c + 1) l x).
      { induction l; cbn; auto. }
      rewrite FL. 
      assert (T : acc + acc + fe F n * - (1 + 1) + fe F e * (zeta - 1) + fe F n * fe F e * (1 - zeta + (1 - zeta)) + (c + c + 1)
                  = acc + c + (acc + c) + digit zeta n e) by apply lift_step_total.
      rewrite T. reflexivity.
  Qed.
  Lemma en_lift_w bs r : holds (en_lift F F 1 zeta false (ewir bs)) r
    <-> r = wir (lift_bits bs ((zeta + 1) + (zeta + 1))).
  Proof.
    unfold en_lift. rewrite en_bools_w. hw. rewrite holds_bind. split.
    - intros (x & Hx & H). apply en_lift_go_w in Hx. destruct Hx as (a & c & -> & E & _). revert H. hw.
      rewrite e_add_w, E. replace (0 + (zeta + 1 + (zeta + 1))) with (zeta + 1 + (zeta + 1)) by ring. auto.
    - intros ->. set (c := fold_left (fun c _ => c + c + 1) (seq 0 (length bs / 2)) (zeta + 1 + (zeta + 1))).
      exists (wir (lift_bits bs (0 + (zeta + 1 + (zeta + 1))) - c), c). split.
      + apply en_lift_go_w. exists (lift_bits bs (0 + (zeta + 1 + (zeta + 1))) - c), c. repeat split. ring.
      + hw. rewrite e_add_w. f_equal. replace (0 + (zeta + 1 + (zeta + 1))) with (zeta + 1 + (zeta + 1)) by ring. ring.
  Qed.
  Lemma en_lift_go_s bs : forall (acc c : F) s, exists acc' c',
    simulate (en_lift_go F F zeta (map bhon bs) (hon acc) c) s
    = Some (hon acc', c', bump s 0 (length bs / 2) (2 * (length bs / 2))) /\ acc' + c' = lift_bits bs (acc + c).
  Proof.
    induction bs as [|b|n e bs IH] using pair_ind; intros acc c s.
    - exists acc, c. cbn [map en_lift_go lift_bits length simulate]. cbn [Nat.div Nat.divmod fst Nat.mul]. now rewrite bump_0.
    - exists acc, c. cbn [map en_lift_go lift_bits length simulate]. cbn. now rewrite bump_0.
    - cbn [map en_lift_go lift_bits]. unfold e_double. rewrite sim_bind, b_and_s, ?b_elem_s. cbv beta iota. sw. rewrite ?b_elem_s. sw.
      cbn [c_value].
      destruct (IH (acc + acc + fe F n * - (1 + 1) + fe F e * (zeta - 1) + fe F (n && e) * (1 - zeta + (1 - zeta)))
                   (c + c + 1) (bump s 0 1 2)) as (a' & c' & E & T).
      exists a', c'. rewrite E. split.
      + rewrite bump_bump. apply sim_eq; auto;
          cbn [length]; replace (S (S (length bs))) with (length bs + 1 * 2)%nat by lia; rewrite Nat.div_add by lia; lia.
      + rewrite T. f_equal. rewrite <- lift_step_total. unfold lift_acc_step. destruct n, e; cbn [fe andb]; ring.
  Qed.
  Lemma en_lift_s n v s : simulate (en_lift F F 1 zeta true (ehon n v)) s
    = Some (hon (lift_bits (map (nbit v) (seq 0 n)) ((zeta + 1) + (zeta + 1))), bump s 0 (n / 2) (2 * (n / 2))).
  Proof.
    unfold en_lift. rewrite en_bools_s. sw. rewrite <- (map_map (nbit v) bhon).
    destruct (en_lift_go_s (map (nbit v) (seq 0 n)) 0 (zeta + 1 + (zeta + 1)) s) as (a & c & E & T).
    rewrite E. rewrite map_length, seq_length. cbv beta iota. sw. rewrite e_add_s, T.
    replace (0 + (zeta + 1 + (zeta + 1))) with (zeta + 1 + (zeta + 1)) by ring. reflexivity.
  Qed.
  (** the loop is the sum *)
  Lemma lift_bits_sum k : forall (bit : nat -> bool) c, lift_bits (map bit (seq 0 (2 * k))) c
    = (1 + 1) ^ k * c + fsum k (fun i => (1 + 1) ^ (k - 1 - i) * digit zeta (bit (2 * i)%nat) (bit (2 * i + 1)%nat)).
  Proof.
    induction k as [|k IH]; intros bit c.
    - cbn. ring.
    - replace (2 * S k)%nat with (S (S (2 * k))) by lia. cbn [seq map lift_bits].
      rewrite <- (seq_shift _ 1), <- (seq_shift _ 0), !map_map. rewrite (IH (fun i => bit (S (S i)))).
      rewrite fsum_S_first. replace (S k - 1 - 0)%nat with k by lia. rewrite fpow_S.
      change (2 * 0)%nat with 0%nat. change (0 + 1)%nat with 1%nat.
      rewrite (fsum_ext F k _ (fun i => (1 + 1) ^ (S k - 1 - S i) * digit zeta (bit (2 * S i)%nat) (bit (2 * S i + 1)%nat))).
      + ring.
      + intros i Hi. replace (S k - 1 - S i)%nat with (k - 1 - i)%nat by lia. do 2 f_equal; f_equal; lia.
  Qed.
  Lemma lift_bits_lift_sum k bit : lift_bits (map bit (seq 0 (2 * k))) ((zeta + 1) + (zeta + 1)) = lift_sum zeta k bit.
  Proof. rewrite lift_bits_sum. unfold lift_sum. rewrite fpow_add, fpow_1. ring. Qed.
  Lemma land_pow2 w j : negb (N.eqb (N.land w (2 ^ j)) 0) = N.testbit w j.
  Proof.
    destruct (N.testbit w j) eqn:E.
    - apply negb_true_iff, N.eqb_neq. intros K. assert (H : N.testbit (N.land w (2 ^ j)) j = false) by (rewrite K; apply N.bits_0).
      rewrite N.land_spec, E, N.pow2_bits_true in H. discriminate.
    - apply negb_false_iff, N.eqb_eq. apply N.bits_inj_0. intros n. rewrite N.land_spec.
      destruct (N.eq_dec n j) as [->|D]; [now rewrite E|].
      rewrite N.pow2_bits_false by auto. apply andb_false_r.
  Qed.
  Lemma land_bit v i j : negb (N.eqb (N.land (N.shiftr v (N.of_nat i)) (2 ^ N.of_nat j)) 0) = nbit v (i + j).
  Proof.
    rewrite land_pow2, N.shiftr_spec by lia. unfold nbit. f_equal. lia.
  Qed.
  Lemma lift_native_sum n v : lift_native F zeta n v = lift_sum zeta (n / 2) (nbit v).
  Proof.
    unfold lift_native. rewrite <- lift_bits_lift_sum. set (c := zeta + 1 + (zeta + 1)). clearbody c.
    set (k := (n / 2)%nat). clearbody k.
    assert (K : forall k s c, fold_left (lift_step F zeta v) (seq s k) c = lift_bits (map (nbit v) (seq (2 * s) (2 * k))) c).
    { clear. induction k as [|k IH]; intros s c.
      - reflexivity.
      - replace (2 * S k)%nat with (S (S (2 * k))) by lia. cbn [seq map lift_bits fold_left]. rewrite IH.
        replace (2 * S s)%nat with (S (S (2 * s))) by lia. f_equal. unfold lift_step.
        change 1%N with (2 ^ N.of_nat 0)%N. change 2%N with (2 ^ N.of_nat 1)%N. rewrite !land_bit.
        rewrite Nat.add_0_r, Nat.add_1_r. unfold digit.
        destruct (nbit v (2 * s)), (nbit v (S (2 * s))); ring. }
    apply (K k 0%nat).
  Qed.
End Lift.

(** ** Scaling *)
Section Scale.
  Variables (F Fs : Field) (b zeta : F) (lambda : Fs).
  Add Field FFsc : (f_theory F).
  Add Field FFss : (f_theory Fs).
  Open Scope f_scope.
  Variable E : CurveGroup F Fs b zeta lambda.
  Hypothesis twoF : (1 + 1 : F) <> 0.
  Hypothesis twoS : (1 + 1 : Fs) <> 0.
  Local Notation aff := (cg_aff F Fs b zeta lambda E).

  Lemma scale_zero (c : Fs) (P : E) : P <> m0 -> mscale c P = m0 -> c = 0.
  Proof.
    intros NP H. destruct (feq_dec Fs c 0) as [->|N]; auto. exfalso. apply NP.
    rewrite <- (mscale_1 Fs E P). replace (1 : Fs) with (finv c * c) by (field; exact N).
    rewrite <- mscale_mul, H. apply mscale_m0.
  Qed.
  Lemma scale_inj (c d : Fs) (P : E) : P <> m0 -> mscale c P = mscale d P -> c = d.
  Proof.
    intros NP H. apply fsub_eq_0. apply (scale_zero (c - d) P NP).
    replace (c - d) with (c + - (1) * d) by ring. rewrite mscale_addl, H, <- mscale_mul.
    rewrite <- (mscale_1 Fs E (mscale d P)) at 1. rewrite <- mscale_addl.
    replace (1 + - (1)) with (0 : Fs) by ring. apply mscale_0.
  Qed.
  Lemma aff_some (c : Fs) (P : E) : P <> m0 -> c <> 0 -> exists p, aff (mscale c P) = Some p /\ on_curve b p.
  Proof.
    intros NP N. destruct (aff (mscale c P)) as [p|] eqn:A.
    - exists p. split; auto. eapply cg_on. exact A.
    - exfalso. apply (cg_fin F Fs b zeta lambda E (mscale c P)); auto.
      intros H. apply N. now apply (scale_zero c P).
  Qed.
  (** equal x: equal or opposite *)
  Lemma same_x (c d : Fs) (P : E) p q : P <> m0 -> aff (mscale c P) = Some p -> aff (mscale d P) = Some q ->
    fst p = fst q -> c = d \/ c = - d.
  Proof.
    intros NP A B X. pose proof (cg_on _ _ _ _ _ E _ _ A) as Op. pose proof (cg_on _ _ _ _ _ E _ _ B) as Oq.
    unfold on_curve in *.
    assert (K : (snd p - snd q) * (snd p + snd q) = 0).
    { transitivity (snd p * snd p - snd q * snd q); [ring|]. rewrite Op, Oq, X. ring. }
    apply fmul_integral in K. destruct K as [K|K].
    - left. apply (scale_inj c d P NP). apply (cg_inj _ _ _ _ _ E). rewrite A, B.
      apply (proj1 (fsub_eq_0 F _ _)) in K. destruct p as [x y], q as [x' y']. cbn [fst snd] in *. rewrite X, K. reflexivity.
    - right. apply (scale_inj c (- d) P NP). apply (cg_inj _ _ _ _ _ E).
      replace (- d) with (- (1) * d) by ring. rewrite <- mscale_mul, A.
      rewrite (cg_neg _ _ _ _ _ E _ _ B). destruct p as [x y], q as [x' y']. cbn [fst snd] in *. rewrite X. do 2 f_equal.
      transitivity (y + y' - y'); [ring|]. rewrite K. ring.
  Qed.
  Lemma y_nonzero (c : Fs) (P : E) p : P <> m0 -> c <> 0 -> aff (mscale c P) = Some p -> snd p <> 0.
  Proof.
    intros NP N A Y. pose proof (cg_neg _ _ _ _ _ E _ _ A) as B. rewrite mscale_mul in B.
    assert (H : c = - (1) * c).
    { apply (scale_inj _ _ P NP). apply (cg_inj _ _ _ _ _ E). rewrite A, B, Y. destruct p as [x y]. cbn [fst snd] in *.
      subst. do 2 f_equal. ring. }
    apply N. apply (fmul_cancel_l Fs (1 + 1)); auto. transitivity (c + c); [ring|]. rewrite H at 1. ring.
  Qed.
  Lemma add_aff (c d : Fs) (P : E) p q : P <> m0 -> aff (mscale c P) = Some p -> aff (mscale d P) = Some q ->
    c <> d -> c <> - d -> fst p <> fst q /\ exists r, aff (mscale (c + d) P) = Some r /\ sum_of b p q r.
  Proof.
    intros NP A B D1 D2. assert (X : fst p <> fst q).
    { intros X. destruct (same_x c d P p q NP A B X); auto. }
    split; auto. rewrite mscale_addl. eapply cg_add; eauto.
  Qed.

  (** one double-and-add step *)
  Lemma da_ok (c d : Fs) (P : E) p q : P <> m0 -> aff (mscale c P) = Some p -> aff (mscale d P) = Some q ->
    c <> 0 -> d <> 0 -> c <> d -> c <> - d -> c + c + d <> 0 ->
    exists s, aff (mscale (c + c + d) P) = Some s /\
      (forall r, holds (p_double_and_add F F (pwir p) (pwir q)) r <-> r = pwir s) /\
      (forall st, simulate (p_double_and_add F F (phon p) (phon q)) st = Some (phon s, bump st 0 5 10)).
  Proof.
    intros NP A B Nc Nd D1 D2 D3.
    destruct (add_aff c d P p q NP A B D1 D2) as (X & t & T & St).
    assert (D4 : c <> c + d).
    { intros H. apply Nd. transitivity (c + d - c); [ring|]. rewrite <- H. ring. }
    assert (D5 : c <> - (c + d)).
    { intros H. apply D3. transitivity (c + (c + d)); [ring|]. rewrite H at 1. ring. }
    destruct (add_aff c (c + d) P p t NP A T D4 D5) as (X2 & s & S & Ss).
    pose proof (cg_on _ _ _ _ _ E _ _ A) as Op. pose proof (cg_on _ _ _ _ _ E _ _ B) as Oq.
    pose proof (cg_on _ _ _ _ _ E _ _ T) as Ot. pose proof (y_nonzero c P p NP Nc A) as Y.
    exists s. replace (c + c + d) with (c + (c + d)) by ring. split; [exact S|]. split.
    - intros r. rewrite (p_da_w F b twoF p q r Op Oq X Y). split.
      + intros (t' & s' & T' & _ & S' & ->).
        assert (t' = t) as -> by (eapply (sum_fun F b twoF p q); eauto).
        assert (s' = s) as -> by (eapply (sum_fun F b twoF p t); eauto). reflexivity.
      + intros ->. exists t, s. auto.
    - intros st. destruct (p_da_s F b twoF p q t st Op Oq X St X2) as (s' & S' & R).
      assert (s' = s) as -> by (eapply (sum_fun F b twoF p t); eauto). exact R.
  Qed.

  (** scalars a + b lambda with small natural a, b are nonzero *)
  Hypothesis lam : lambda * lambda + lambda + 1 = 0.
  Definition K (x y : nat) : Fs := fnat x + fnat y * lambda.
  Lemma K_nonzero (B x y : nat) : (forall n, (0 < n < B * B)%nat -> fnat n <> (0 : Fs)) ->
    (0 < x)%nat -> (x < B)%nat -> (y < B)%nat -> K x y <> 0.
  Proof.
    intros ch Px Bx By H.
    assert (L2 : lambda * lambda = - lambda - 1).
    { transitivity (lambda * lambda + lambda + 1 - lambda - 1); [ring|]. rewrite lam. ring. }
    assert (Nn : (x * y <= x * x + y * y)%nat) by nia.
    assert (E0 : fnat (x * x + y * y - x * y) = (0 : Fs)).
    { transitivity ((fnat (x * x + y * y - x * y) + fnat (x * y)) - fnat (x * y) : Fs); [ring|].
      rewrite <- fnat_add. replace (x * x + y * y - x * y + x * y)%nat with (x * x + y * y)%nat by lia.
      rewrite fnat_add, !fnat_mul.
      transitivity (K x y * (fnat x - fnat y - fnat y * lambda)); [|rewrite H; ring].
      unfold K. transitivity (fnat x * fnat x + fnat y * fnat y - fnat x * fnat y
         - fnat y * fnat y * (lambda * lambda + lambda + 1) : Fs); [rewrite lam; ring|]. ring. }
    revert E0. apply ch. nia.
  Qed.
  Definition stepK (n e : bool) (xy : nat * nat) : nat * nat :=
    let '(x, y) := xy in
    if e then (2 * x, if n then 2 * y - 1 else 2 * y + 1)%nat
    else (if n then 2 * x - 1 else 2 * x + 1, 2 * y)%nat.
  Lemma stepK_val n e x y : (1 <= x)%nat -> (1 <= y)%nat ->
    K (fst (stepK n e (x, y))) (snd (stepK n e (x, y))) = K x y + K x y + digit lambda n e.
  Proof.
    intros Hx Hy. unfold K, digit.
    assert (S1 : forall z, (1 <= z)%nat -> fnat (2 * z - 1) = (fnat z + fnat z - 1 : Fs)).
    { intros z Hz. transitivity (fnat (2 * z - 1) + fnat 1 - fnat 1 : Fs); [ring|]. rewrite <- fnat_add.
      replace (2 * z - 1 + 1)%nat with (z + z)%nat by lia. rewrite fnat_add. cbn [fnat]. ring. }
    assert (S2 : forall z, fnat (2 * z + 1) = (fnat z + fnat z + 1 : Fs)).
    { intros z. replace (2 * z + 1)%nat with (z + z + 1)%nat by lia. rewrite !fnat_add. cbn [fnat]. ring. }
    assert (S3 : forall z, fnat (2 * z) = (fnat z + fnat z : Fs)).
    { intros z. replace (2 * z)%nat with (z + z)%nat by lia. now rewrite fnat_add. }
    destruct n, e; cbn [stepK fst snd]; rewrite ?S1, ?S2, ?S3 by auto; ring.
  Qed.
  Lemma digit_aff n e (P : E) p : aff P = Some p ->
    aff (mscale (digit lambda n e) P) = Some (if e then zeta * fst p else fst p, if n then - snd p else snd p).
  Proof.
    intros A. unfold digit. destruct e.
    - replace ((if n then - (1) else 1) * lambda) with (lambda * (if n then - (1) else 1 : Fs)) by ring.
      rewrite <- mscale_mul. destruct n.
      + apply (cg_endo _ _ _ _ _ E _ (fst p, - snd p)). apply (cg_neg _ _ _ _ _ E _ _ A).
      + rewrite mscale_1. apply (cg_endo _ _ _ _ _ E _ _ A).
    - replace ((if n then - (1) else 1) * 1) with (if n then - (1) else 1 : Fs) by ring. destruct n.
      + apply (cg_neg _ _ _ _ _ E _ _ A).
      + rewrite mscale_1, A. destruct p. reflexivity.
  Qed.
  Lemma scale_go_ok bs : forall (P : E) p q x y,
    P <> m0 -> aff P = Some p -> aff (mscale (K x y) P) = Some q -> (2 <= x)%nat -> (2 <= y)%nat ->
    (forall n, (0 < n < ((Nat.max x y + 1) * 2 ^ (length bs / 2)) * ((Nat.max x y + 1) * 2 ^ (length bs / 2)))%nat -> fnat n <> (0 : Fs)) ->
    exists s, aff (mscale (lift_bits Fs lambda bs (K x y)) P) = Some s /\
      (forall r, holds (en_scale_go F F zeta (map (fun b => bwir (fe F b)) bs) (pwir p) (pwir q)) r <-> r = pwir s) /\
      (forall st, simulate (en_scale_go F F zeta (map bhon bs) (phon p) (phon q)) st
                  = Some (phon s, bump st 0 (7 * (length bs / 2)) (14 * (length bs / 2)))).
  Proof.
    induction bs as [|b0|n e bs IH] using pair_ind; intros P p q x y NP A AQ Hx Hy ch.
    - exists q. cbn [map en_scale_go lift_bits length]. split; [exact AQ|]. split; [intros r; apply ret_w|].
      intros st. cbn. now rewrite bump_0.
    - exists q. cbn [map en_scale_go lift_bits length]. split; [exact AQ|]. split; [intros r; apply ret_w|].
      intros st. cbn. now rewrite bump_0.
    - assert (L : (length (n :: e :: bs) / 2 = S (length bs / 2))%nat).
      { cbn [length]. replace (S (S (length bs))) with (length bs + 1 * 2)%nat by lia. rewrite Nat.div_add by lia. lia. }
      rewrite L in *. set (k := (length bs / 2)%nat) in *. set (M := Nat.max x y) in *.
      assert (P2 : (1 <= 2 ^ k)%nat) by (apply Nat.neq_0_lt_0, Nat.pow_nonzero; lia).
      assert (ch' : forall n, (0 < n < (2 * M + 2) * (2 * M + 2))%nat -> fnat n <> (0 : Fs)).
      { intros i Hi. apply ch. rewrite Nat.pow_succ_r'. nia. }
      assert (BM : (x <= M /\ y <= M)%nat) by (unfold M; lia).
      (* the four scalars are nonzero *)
      set (d := digit lambda n e) in *.
      assert (Cnz : forall u v, (0 < u)%nat -> (u < 2 * M + 2)%nat -> (v < 2 * M + 2)%nat -> K u v <> 0).
      { intros u v Hu Bu Bv. apply (K_nonzero (2 * M + 2)); auto. }
      assert (Nc : K x y <> 0) by (apply Cnz; lia).
      assert (fS : forall z, (1 <= z)%nat -> fnat (z - 1) = (fnat z - 1 : Fs)).
      { intros z Hz. transitivity (fnat (z - 1) + fnat 1 - fnat 1 : Fs); [ring|]. rewrite <- fnat_add.
        replace (z - 1 + 1)%nat with z by lia. cbn [fnat]. ring. }
      assert (Nd : d <> 0).
      { unfold d, digit. assert (Z1 : lambda <> 0).
        { intros Z. apply (f1_neq_0 Fs). rewrite <- lam, Z. ring. }
        pose proof (f1_neq_0 Fs) as O1. assert (O2 : - (1) <> (0 : Fs)).
        { intros Z. apply O1. transitivity (- - (1) : Fs); [ring|]. rewrite Z. ring. }
        intros Z. apply fmul_integral in Z. destruct Z as [Z|Z]; [destruct n|destruct e]; auto. }
      assert (D1 : K x y <> d).
      { intros H. assert (Z : K x y - d = 0) by (rewrite H; ring). revert Z.
        replace (K x y - d) with (if e then (K x (if n then y + 1 else y - 1)) else K (if n then x + 1 else x - 1) y).
        - destruct e; apply Cnz; destruct n; lia.
        - unfold K, d, digit. destruct n, e; rewrite ?fS, ?fnat_add by lia; cbn [fnat]; ring. }
      assert (D2 : K x y <> - d).
      { intros H. assert (Z : K x y + d = 0) by (rewrite H; ring). revert Z.
        replace (K x y + d) with (if e then (K x (if n then y - 1 else y + 1)) else K (if n then x - 1 else x + 1) y).
        - destruct e; apply Cnz; destruct n; lia.
        - unfold K, d, digit. destruct n, e; rewrite ?fS, ?fnat_add by lia; cbn [fnat]; ring. }
      assert (SV : K (fst (stepK n e (x, y))) (snd (stepK n e (x, y))) = K x y + K x y + d) by (apply stepK_val; lia).
      assert (D3 : K x y + K x y + d <> 0).
      { rewrite <- SV. apply Cnz; destruct n, e; cbn [stepK fst snd]; lia. }
      pose proof (digit_aff n e P p A) as AD. fold d in AD.
      destruct (da_ok (K x y) d P q _ NP AQ AD Nc Nd D1 D2 D3) as (s & S & Hh & Hs).
      destruct (stepK n e (x, y)) as [x' y'] eqn:SK. cbn [fst snd] in SV.
      assert (Bx : (2 <= x' /\ 2 <= y' /\ Nat.max x' y' + 1 <= (M + 1) * 2)%nat).
      { unfold M. destruct n, e; cbn [stepK] in SK; inversion SK; subst; lia. }
      destruct (IH P p s x' y' NP A) as (s' & S' & Hh' & Hs').
      + rewrite SV. exact S.
      + lia.
      + lia.
      + intros i Hi. apply ch. destruct Hi as [H1 H2]. split; auto. eapply Nat.lt_le_trans; [exact H2|].
        rewrite Nat.pow_succ_r'. apply Nat.mul_le_mono; nia.
      + exists s'. cbn [lift_bits]. fold d. rewrite <- SV. split; [exact S'|]. split.
        * intros r. cbn [map en_scale_go].
          rewrite (holds_det F _ _ _ _ (fun y0 => p_cond_negate_w F p n y0)).
          rewrite (holds_det F _ _ _ _ (fun y0 => p_cond_endo_w F zeta _ e y0)). cbn [fst snd].
          rewrite (holds_det F _ _ _ _ Hh). apply Hh'.
        * intros st. cbn [map en_scale_go].
          rewrite sim_bind, p_cond_negate_s, sim_bind, p_cond_endo_s. cbn [fst snd].
          rewrite sim_bind, Hs, Hs', !bump_bump. apply sim_eq; lia.
  Qed.

  Lemma group_scale_ok bs (P : E) p : P <> m0 -> aff P = Some p ->
    (forall n, (0 < n < (3 * 2 ^ (length bs / 2)) * (3 * 2 ^ (length bs / 2)))%nat -> fnat n <> (0 : Fs)) ->
    exists s, aff (mscale (lift_bits Fs lambda bs ((lambda + 1) + (lambda + 1))) P) = Some s /\
      (forall r, holds (gbind (p_endo F F zeta (pwir p)) (fun ep => gbind (p_add_incomplete F F ep (pwir p) None)
                  (fun s => gbind (p_double F F (fst s)) (fun acc => en_scale_go F F zeta (map (fun b => bwir (fe F b)) bs) (pwir p) acc)))) r
                 <-> r = pwir s) /\
      (forall st, simulate (gbind (p_endo F F zeta (phon p)) (fun ep => gbind (p_add_incomplete F F ep (phon p) None)
                  (fun s => gbind (p_double F F (fst s)) (fun acc => en_scale_go F F zeta (map bhon bs) (phon p) acc)))) st
                 = Some (phon s, bump st 0 (7 + 7 * (length bs / 2)) (14 + 14 * (length bs / 2)))).
  Proof.
    intros NP A ch. pose proof (cg_on _ _ _ _ _ E _ _ A) as Op.
    assert (P2 : (1 <= 2 ^ (length bs / 2))%nat) by (apply Nat.neq_0_lt_0, Nat.pow_nonzero; lia).
    assert (ch0 : forall n, (0 < n < 3 * 3)%nat -> fnat n <> (0 : Fs)) by (intros i Hi; apply ch; nia).
    pose proof (cg_endo _ _ _ _ _ E _ _ A) as AE.
    assert (A1 : aff (mscale 1 P) = Some p) by (rewrite mscale_1; exact A).
    assert (N11 : lambda + 1 <> 0).
    { replace (lambda + 1) with (K 1 1) by (unfold K; cbn [fnat]; ring). apply (K_nonzero 3); auto. }
    assert (D1 : lambda <> 1).
    { intros H. apply (ch0 3%nat); [lia|]. rewrite <- lam, H. cbn [fnat]. ring. }
    assert (D2 : lambda <> - (1)).
    { intros H. apply (f1_neq_0 Fs). rewrite <- lam, H. ring. }
    destruct (add_aff lambda 1 P _ _ NP AE A1 D1 D2) as (X & t & T & St).
    pose proof (cg_on _ _ _ _ _ E _ _ AE) as Oe. pose proof (cg_on _ _ _ _ _ E _ _ T) as Ot.
    pose proof (y_nonzero _ P t NP N11 T) as Y.
    destruct (cg_dbl _ _ _ _ _ E _ _ T Y) as (q & Q & Sq). rewrite <- mscale_addl in Q.
    destruct (scale_go_ok bs P p q 2 2 NP A) as (s & S & Hh & Hs).
    - replace (K 2 2) with (lambda + 1 + (lambda + 1)) by (unfold K; cbn [fnat]; ring). exact Q.
    - lia.
    - lia.
    - exact ch.
    - exists s. replace (lambda + 1 + (lambda + 1)) with (K 2 2) by (unfold K; cbn [fnat]; ring). split; [exact S|]. split.
      + intros r. rewrite (holds_det F _ _ _ _ (fun y0 => p_endo_w F zeta p y0)).
        assert (H1 : forall y0, holds (p_add_incomplete F F (pwir (zeta * fst p, snd p)) (pwir p) None) y0 <-> y0 = (pwir t, None)).
        { intros y0. rewrite (p_add_w F b twoF _ _ None y0 Oe Op X). split.
          - intros (t' & T' & ->). assert (t' = t) as -> by (eapply (sum_fun F b twoF (zeta * fst p, snd p) p); eauto). reflexivity.
          - intros ->. exists t. auto. }
        rewrite (holds_det F _ _ _ _ H1). cbn [fst].
        assert (H2 : forall y0, holds (p_double F F (pwir t)) y0 <-> y0 = pwir q).
        { intros y0. rewrite (p_double_w F b twoF _ y0 Ot Y). split.
          - intros (q' & Q' & ->). assert (q' = q) as -> by (eapply (sum_fun F b twoF t t); eauto). reflexivity.
          - intros ->. exists q. auto. }
        rewrite (holds_det F _ _ _ _ H2). apply Hh.
      + intros st. rewrite sim_bind, p_endo_s, sim_bind.
        destruct (p_add_s F b twoF _ _ None st Oe Op X) as (t' & T' & R). cbn [nz_h option_map] in R. rewrite R.
        assert (t' = t) as -> by (eapply (sum_fun F b twoF (zeta * fst p, snd p) p); eauto). cbn [fst].
        rewrite sim_bind. destruct (p_double_s F b twoF t (bump st 0 3 6) Ot Y) as (q' & Q' & R2). rewrite R2.
        assert (q' = q) as -> by (eapply (sum_fun F b twoF t t); eauto).
        rewrite Hs, !bump_bump. apply sim_eq; lia.
  Qed.
End Scale.
