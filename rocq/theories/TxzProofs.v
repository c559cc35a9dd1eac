(** The t(x,z) routine, and endoscalar extraction. *)
From Coq Require Import List Arith NArith Bool Lia Ring Field.
From Verif Require Import FieldDef ModDef ArithModel ArithSpec ArithProofs SparseModel TModel TProofs GadgetModel GadgetSpec GadgetProofs
  EndoSpec EndoProofs.
Import ListNotations.

Section Txz.
  Variable F : Field.
  Add Field FFtx : (f_theory F).
  Open Scope f_scope.

  Lemma invert_with_bw (a : F) {B : Type} (f : elem F F -> G F F B) r :
    holds (gbind (e_invert_with F F 1 (wir a) None) f) r <-> a <> 0 /\ holds (f (wir (finv a))) r.
  Proof.
    rewrite holds_bind. split.
    - intros (x & Hx & H). apply e_invert_with_w in Hx. destruct Hx as (q & Hq & ->).
      assert (N : a <> 0). { intros ->. apply (f1_neq_0 F). rewrite <- Hq. ring. }
      split; auto. replace (finv a) with q; auto. apply (fmul_cancel_l F a); auto. rewrite Hq. field. exact N.
    - intros [N H]. exists (wir (finv a)). split; auto. apply e_invert_with_w. exists (finv a). split; auto. field. exact N.
  Qed.
  Lemma squarings_bw k (a : F) {B : Type} (f : elem F F -> G F F B) r :
    holds (gbind (e_squarings F F k (wir a)) f) r <-> holds (f (wir (a ^ (2 ^ k)))) r.
  Proof. apply holds_det. intros y. apply e_squarings_w. Qed.
  Lemma loop_w k : forall (l r p q : F) y,
    holds (g_txz_loop F F k (wir l) (wir r) (wir p) (wir q)) y
    <-> y = (wir (fst (txz_double k l r p q)), wir (snd (txz_double k l r p q))).
  Proof.
    induction k as [|k IH]; intros l r p q y; cbn [g_txz_loop txz_double].
    - apply ret_w.
    - unfold e_square. hw. apply IH.
  Qed.
  Lemma loop_s k : forall (l r p q : F) s,
    simulate (g_txz_loop F F k (hon l) (hon r) (hon p) (hon q)) s
    = Some (hon (fst (txz_double k l r p q)), hon (snd (txz_double k l r p q)), bump s 0 (4 * k) (8 * k)).
  Proof.
    induction k as [|k IH]; intros l r p q s; cbn [g_txz_loop txz_double].
    - cbn. now rewrite bump_0.
    - unfold e_square. sw. rewrite IH, !bump_bump. apply sim_eq; lia.
  Qed.
  Lemma l_start k (x z : F) : x <> 0 ->
    x ^ (2 ^ k) * x ^ (2 ^ k) * (x ^ (2 ^ k) * x ^ (2 ^ k)) * finv x * (z ^ (2 ^ k) * z ^ (2 ^ k))
    = x ^ (4 * 2 ^ k - 1) * z ^ (2 * 2 ^ k).
  Proof.
    intros N. assert (P2 : (1 <= 2 ^ k)%nat) by (apply Nat.neq_0_lt_0, Nat.pow_nonzero; lia).
    rewrite !fpow_sq. rewrite <- (fpow_sub F x (4 * 2 ^ k) 1) by (auto; lia). rewrite fpow_1.
    do 2 f_equal. f_equal. lia.
  Qed.
  Lemma value_ok k (x z : F) : x <> 0 -> z <> 0 ->
    let l := x ^ (4 * 2 ^ k - 1) * z ^ (2 * 2 ^ k) in
    let d := txz_double k l l (finv x * z) (finv x * finv z) in
    - (fst d + snd d * finv z) = t_spec F (2 ^ k) x z.
  Proof.
    intros Nx Nz l d. pose proof (txz_predict_ok F k x z Nx Nz) as H. unfold txz_predict in H.
    rewrite (proj2 (feqb_false F x 0) Nx), (proj2 (feqb_false F z 0) Nz) in H. fold l in H.
    unfold d. destruct (txz_double k l l (finv x * z) (finv x * finv z)) as [l' r']. cbn [fst snd].
    now inversion H.
  Qed.
  Lemma execute_w k (x z : F) r : holds (g_txz_execute F F 1 k (wir x) (wir z) None) r
    <-> x <> 0 /\ z <> 0 /\ r = wir (t_spec F (2 ^ k) x z).
  Proof.
    unfold g_txz_execute, e_square. cbn [lift1 option_map]. rewrite squarings_bw. hw. rewrite squarings_bw. hw.
    rewrite !invert_with_bw. 
    split; (intros (Nx & Nz & H); split; [exact Nx|split; [exact Nz|]]); revert H; hw;
      rewrite (holds_det F _ _ _ _ (fun y => loop_w k _ _ _ _ y)); cbn [fst snd]; hw; rewrite e_negate_w, l_start by auto;
      pose proof (value_ok k x z Nx Nz) as V; cbv zeta in V; rewrite V; auto.
  Qed.
  Lemma execute_s k (x z : F) s : x <> 0 -> z <> 0 ->
    simulate (g_txz_execute F F 1 k (hon x) (hon z) (Some (finv x, finv z))) s
    = Some (hon (t_spec F (2 ^ k) x z), bump s 0 (6 * k + 10) (12 * k + 20)).
  Proof.
    intros Nx Nz. unfold g_txz_execute, e_square. cbn [lift1 option_map fst snd].
    rewrite sim_bind, e_squarings_s. cbv beta iota. sw. rewrite e_squarings_s. cbv beta iota. sw.
    rewrite e_invert_with_s. rewrite (proj2 (feqb_true F (x * finv x) 1)) by (field; exact Nx). cbv beta iota.
    rewrite sim_bind, e_invert_with_s. rewrite (proj2 (feqb_true F (z * finv z) 1)) by (field; exact Nz). cbv beta iota. sw.
    rewrite loop_s. cbv beta iota. sw. rewrite ?e_negate_s. rewrite l_start by auto.
    pose proof (value_ok k x z Nx Nz) as V; cbv zeta in V; rewrite V. rewrite !bump_bump. apply sim_eq; lia.
  Qed.
  (** a wrong inverse is caught *)
  Lemma execute_s_bad k (x z xi zi : F) s : x * xi <> 1 \/ z * zi <> 1 ->
    simulate (g_txz_execute F F 1 k (hon x) (hon z) (Some (xi, zi))) s = None.
  Proof.
    intros H. unfold g_txz_execute, e_square. cbn [lift1 option_map fst snd].
    rewrite sim_bind, e_squarings_s. cbv beta iota. sw. rewrite e_squarings_s. cbv beta iota. sw.
    rewrite e_invert_with_s. destruct (feqb (x * xi) 1) eqn:E; [|reflexivity].
    apply feqb_true in E. destruct H as [H|H]; [contradiction|]. cbv beta iota.
    rewrite sim_bind, e_invert_with_s, (proj2 (feqb_false F _ _) H). reflexivity.
  Qed.
  Lemma predict_s k (x z : F) s : simulate (g_txz_predict F F k (hon x) (hon z)) s
    = if feqb x 0 || feqb z 0 then None
      else Some (hon (t_spec F (2 ^ k) x z), Some (finv x, finv z), bump s 1 0 0).
  Proof.
    unfold g_txz_predict. cbn [hon ev lift2 try_just fst snd]. unfold inv_opt.
    destruct (feqb x 0) eqn:Ex; [reflexivity|]. destruct (feqb z 0) eqn:Ez; [reflexivity|]. cbn [orb gbind].
    rewrite sim_bind, alloc_s. cbn [simulate].
    assert (V : g_txz_predict_value F k x z (finv x) (finv z) = t_spec F (2 ^ k) x z).
    { apply feqb_false in Ex, Ez. pose proof (value_ok k x z Ex Ez) as V. cbv zeta in V. rewrite <- V.
      unfold g_txz_predict_value.
      assert (K : forall k l r p q, g_txz_predict_loop F k l r p q = txz_double k l r p q).
      { clear. induction k; intros; cbn; auto. }
      rewrite K. now destruct (txz_double _ _ _ _ _). }
    now rewrite V.
  Qed.
End Txz.

Section Extract.
  Variable F : Field.
  Add Field FFex : (f_theory F).
  Open Scope f_scope.
  Variable gen : F.
  Variable fsqrt : F -> option F.

  Definition bit_ok (a : F) (i : nat) (b : bool) : Prop := square (if b then a + fnat i else gen * (a + fnat i)).
  Lemma extract_go_w : forall n a (bits : list bool) s0 r,
    (holds (en_extract_go F F 1 gen fsqrt (seq s0 n) (wir a) (map (fe F) bits) None (fnat s0) (fnat s0 * gen) (fnat s0 * (1 - gen))) r
     <-> exists bs, length bs = n /\ (forall i, (i < n)%nat -> bit_ok a (s0 + i) (nth i bs false)) /\
                    r = ewir F (bits ++ bs)).
  Proof.
    induction n as [|n IH]; intros a bits s0 r; cbn [seq en_extract_go].
    - rewrite ret_w. split.
      + intros ->. exists []. rewrite app_nil_r. repeat split. intros i Hi. inversion Hi.
      + intros ([|b bs] & L & _ & ->); [|discriminate]. now rewrite app_nil_r.
    - cbn [wir ev try_just gbind lift1 lift2 option_map].
      assert (C1 : fnat s0 + 1 = (fnat (S s0) : F)) by reflexivity.
      assert (C2 : fnat s0 * gen + gen = fnat (S s0) * gen) by (cbn [fnat]; ring).
      assert (C3 : fnat s0 * (1 - gen) + (1 - gen) = fnat (S s0) * (1 - gen)) by (cbn [fnat]; ring).
      rewrite holds_bind. split.
      + intros (x & Hx & H). apply b_alloc_w in Hx. destruct Hx as (b & ->).
        rewrite e_alloc_square_bw in H. destruct H as (v & H). cbv beta iota in H. rewrite b_elem_w in H.
        change (mk_elem F F a None) with (wir a) in H. rewrite e_mul_bw, enf_bw in H. destruct H as [Ec H].
        rewrite C1, C2, C3 in H. cbn [bwir bw] in H.
        replace (map (fe F) bits ++ [fe F b]) with (map (fe F) (bits ++ [b])) in H by (now rewrite map_app).
        apply IH in H. destruct H as (bs & L & Hb & ->).
        exists (b :: bs). split; [cbn; now rewrite L|]. split.
        * intros [|i] Hi.
          -- rewrite Nat.add_0_r. cbn [nth]. exists v. revert Ec. lin. cbn [wir ew bw bwir]. intros Ec.
             symmetry. apply fsub_eq_0. rewrite <- Ec. destruct b; cbn [fe]; ring.
          -- cbn [nth length] in *. replace (s0 + S i)%nat with (S s0 + i)%nat by lia. apply Hb. lia.
        * now rewrite <- app_assoc.
      + intros ([|b bs] & L & Hb & ->); [discriminate|]. exists (bwir (fe F b)). split; [apply b_alloc_w; eauto|].
        rewrite e_alloc_square_bw. destruct (Hb 0%nat ltac:(cbn; lia)) as (v & Hv). cbn [nth] in Hv. rewrite Nat.add_0_r in Hv.
        exists v. cbv beta iota. rewrite b_elem_w. change (mk_elem F F a None) with (wir a). rewrite e_mul_bw, enf_bw. split.
        * lin. cbn [wir ew bw bwir]. rewrite Hv. destruct b; cbn [fe]; ring.
        * rewrite C1, C2, C3. cbn [bwir bw].
          replace (map (fe F) bits ++ [fe F b]) with (map (fe F) (bits ++ [b])) by (now rewrite map_app).
          apply IH. exists bs. split; [now inversion L|]. split.
          -- intros i Hi. specialize (Hb (S i)). cbn [nth length] in Hb. replace (S s0 + i)%nat with (s0 + S i)%nat by lia.
             apply Hb. lia.
          -- now rewrite <- app_assoc.
  Qed.
  Lemma extract_w n a r : holds (en_extract F F 1 n gen fsqrt false (wir a)) r <->
    exists bs, length bs = n /\ (forall i, (i < n)%nat -> bit_ok a i (nth i bs false)) /\ r = ewir F bs.
  Proof.
    unfold en_extract. pose proof (extract_go_w n a [] 0 r) as H. cbn [map app Nat.add] in H.
    replace (fnat 0 * gen) with (0 : F) in H by (cbn [fnat]; ring).
    replace (fnat 0 * (1 - gen)) with (0 : F) in H by (cbn [fnat]; ring). apply H.
  Qed.
  (** when gen is a non-square, each bit is determined unless a + i = 0 *)
  Lemma bit_unique a i b c : ~ square gen -> a + fnat i <> 0 -> bit_ok a i b -> bit_ok a i c -> b = c.
  Proof.
    intros NS N. set (t := a + fnat i) in *. unfold bit_ok. fold t.
    assert (X : square t -> square (gen * t) -> False).
    { intros (s & Hs) (u & Hu). apply NS. exists (u * finv s). 
      assert (Ns : s <> 0). { intros ->. apply N. rewrite <- Hs. ring. }
      transitivity (u * u * finv (s * s)); [field; exact Ns|]. rewrite Hu, Hs. field. exact N. }
    destruct b, c; intros H1 H2; auto; exfalso; eauto.
  Qed.
  (** completeness *)
  Hypothesis sqrt_some : forall v s, fsqrt v = Some s -> s * s = v.
  Hypothesis sqrt_none : forall v, fsqrt v = None -> ~ square v.
  Hypothesis gen_ok : forall v, square v \/ square (gen * v).
  Definition is_sq (v : F) : bool := match fsqrt v with Some _ => true | None => false end.
  Lemma extract_go_s : forall n a (bits : list bool) value s0 s,
    let bs := map (fun i => is_sq (a + fnat i)) (seq s0 n) in
    simulate (en_extract_go F F 1 gen fsqrt (seq s0 n) (hon a) (map (fe F) bits) (Some value) (fnat s0) (fnat s0 * gen) (fnat s0 * (1 - gen))) s
    = Some (mk_endo F (map (fe F) (bits ++ bs))
             (Some (fold_left (fun v i => if is_sq (a + fnat i) then N.setbit v (N.of_nat i) else v) (seq s0 n) value)),
            bump s 0 (3 * n) (6 * n)).
  Proof.
    induction n as [|n IH]; intros a bits value s0 s bs; cbn [seq en_extract_go map fold_left].
    - unfold bs. cbn. now rewrite app_nil_r, bump_0.
    - unfold bs. cbn [hon ev try_just]. unfold extract_wit at 1. cbn [seq map].
      assert (C1 : fnat s0 + 1 = (fnat (S s0) : F)) by reflexivity.
      assert (C2 : fnat s0 * gen + gen = fnat (S s0) * gen) by (cbn [fnat]; ring).
      assert (C3 : fnat s0 * (1 - gen) + (1 - gen) = fnat (S s0) * (1 - gen)) by (cbn [fnat]; ring).
      assert (V : exists sq, extract_wit F gen fsqrt (fnat s0) a = Some (sq, is_sq (a + fnat s0)) /\
                 sq * sq = if is_sq (a + fnat s0) then a + fnat s0 else gen * (a + fnat s0)).
      { unfold extract_wit, is_sq. destruct (fsqrt (a + fnat s0)) as [u|] eqn:Q.
        - exists u. split; auto.
        - destruct (fsqrt ((a + fnat s0) * gen)) as [u|] eqn:Q2.
          + exists u. split; auto. rewrite (sqrt_some _ _ Q2). ring.
          + exfalso. destruct (gen_ok (a + fnat s0)) as [H|H].
            * exact (sqrt_none _ Q H).
            * apply (sqrt_none _ Q2). destruct H as (w & H). exists w. rewrite H. ring. }
      destruct V as (sq & V1 & V2). unfold extract_wit in V1. rewrite V1. cbn [gbind lift1 lift2 option_map fst snd].
      set (b := is_sq (a + fnat s0)) in *.
      rewrite sim_bind, b_alloc_s. cbv beta iota. rewrite sim_bind, e_alloc_square_s. cbv beta iota.
      rewrite b_elem_s. change (mk_elem F F a (Some a)) with (hon a). rewrite sim_bind, e_mul_s. cbv beta iota.
      rewrite sim_bind, enf_s.
      + rewrite C1, C2, C3. cbn [bhon bw].
        replace (map (fe F) bits ++ [fe F b]) with (map (fe F) (bits ++ [b])) by (now rewrite map_app).
        change (mk_elem F F a (Some a)) with (hon a). rewrite IH. rewrite <- app_assoc, !bump_bump. apply sim_eq; lia.
      + lin. cbn [hon ew bw bhon]. rewrite V2. destruct b; cbn [fe]; ring.
  Qed.
  Lemma fold_setbit (p : nat -> bool) n v : N.lt v (2 ^ N.of_nat n) -> forall m, exists w,
    fold_left (fun v i => if p i then N.setbit v (N.of_nat i) else v) (seq n m) v = w /\
    N.lt w (2 ^ N.of_nat (n + m)) /\ (forall i, (i < n)%nat -> nbit w i = nbit v i) /\
    (forall i, (n <= i < n + m)%nat -> nbit w i = p i).
  Proof.
    intros Hv m. revert n v Hv. induction m as [|m IH]; intros n v Hv; cbn [seq fold_left].
    - exists v. rewrite Nat.add_0_r. repeat split; auto. intros; lia.
    - assert (H1 : forall j, (n < j)%nat -> N.testbit v (N.of_nat j) = false).
      { intros j Hj. apply (N.bits_above_log2). destruct (N.eq_dec v 0) as [->|Z]; [cbn; lia|].
        apply N.log2_lt_pow2; [lia|]. eapply N.lt_le_trans; [exact Hv|]. apply N.pow_le_mono_r; lia. }
      assert (Hn : N.testbit v (N.of_nat n) = false).
      { destruct (N.eq_dec v 0) as [->|Z]; [apply N.bits_0|]. apply N.bits_above_log2. apply N.log2_lt_pow2; [lia|exact Hv]. }
      set (v' := if p n then N.setbit v (N.of_nat n) else v).
      assert (B : forall j, N.testbit v' j = (p n && N.eqb (N.of_nat n) j || N.testbit v j)%bool).
      { intros j. unfold v'. destruct (p n); cbn [andb orb]; auto. now rewrite N.setbit_eqb. }
      assert (Hv' : N.lt v' (2 ^ N.of_nat (S n))).
      { destruct (N.eq_dec v' 0) as [->|Z]; [apply N.neq_0_lt_0, N.pow_nonzero; lia|].
        apply N.log2_lt_pow2; [lia|]. destruct (N.lt_ge_cases (N.log2 v') (N.of_nat (S n))) as [|K]; auto. exfalso.
        pose proof (N.bit_log2 v' Z) as Bl. rewrite B in Bl. apply orb_true_iff in Bl. destruct Bl as [Bl|Bl].
        - apply andb_true_iff in Bl. destruct Bl as [_ Bl]. apply N.eqb_eq in Bl. lia.
        - rewrite <- (N2Nat.id (N.log2 v')) in Bl. rewrite H1 in Bl; [discriminate|lia]. }
      destruct (IH (S n) v' Hv') as (w & E & Bw & L & M). exists w. split; [exact E|].
      replace (n + S m)%nat with (S n + m)%nat by lia. split; [exact Bw|]. split.
      + intros i Hi. rewrite L by lia. unfold nbit. rewrite B.
        rewrite (proj2 (N.eqb_neq (N.of_nat n) (N.of_nat i))) by lia. now rewrite andb_false_r.
      + intros i Hi. destruct (Nat.eq_dec i n) as [->|D].
        * rewrite L by lia. unfold nbit. rewrite B, N.eqb_refl, Hn, andb_true_r, orb_false_r. reflexivity.
        * apply M. lia.
  Qed.
  Lemma extract_s n a s : exists v, N.lt v (2 ^ N.of_nat n) /\ (forall i, (i < n)%nat -> nbit v i = true <-> square (a + fnat i)) /\
    simulate (en_extract F F 1 n gen fsqrt true (hon a)) s = Some (ehon F n v, bump s 0 (3 * n) (6 * n)).
  Proof.
    destruct (fold_setbit (fun i => is_sq (a + fnat i)) 0 0%N ltac:(cbn; lia) n) as (w & E & B & _ & M).
    exists w. split; [exact B|]. split.
    - intros i Hi. rewrite M by lia. unfold is_sq. split.
      + destruct (fsqrt (a + fnat i)) as [u|] eqn:Q; [|discriminate]. intros _. exists u. auto.
      + intros S. destruct (fsqrt (a + fnat i)) as [u|] eqn:Q; auto. exfalso. exact (sqrt_none _ Q S).
    - unfold en_extract. pose proof (extract_go_s n a [] 0%N 0 s) as H. cbn [map app fnat] in H.
      replace (0 * gen) with (0 : F) in H by ring. replace (0 * (1 - gen)) with (0 : F) in H by ring.
      rewrite H, E. unfold ehon. do 3 f_equal. rewrite map_map. apply map_ext_in. intros i Hi. apply in_seq in Hi.
      rewrite M by lia. reflexivity.
  Qed.
End Extract.
