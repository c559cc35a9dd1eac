From Coq Require Import List Arith Bool Lia Ring Field.
From Verif Require Import FieldDef ModDef ArithModel ArithSpec ArithProofs FFTModel FFTProofs RootsModel.
Import ListNotations.

Section Conv.
  Variable F : Field.
  Add Field FFr : (f_theory F).
  Open Scope f_scope.

  Lemma fsum_triangle m (f : nat -> nat -> F) :
    fsum (S m) (fun i => fsum (S i) (fun j => f j (i - j)%nat))
    = fsum (S m) (fun j => fsum (S (m - j)) (fun t => f j t)).
  Proof.
    induction m as [|m IH]; [reflexivity|].
    change (fsum (S (S m)) (fun i => fsum (S i) (fun j => f j (i - j)%nat)))
      with (fsum (S m) (fun i => fsum (S i) (fun j => f j (i - j)%nat)) + fsum (S (S m)) (fun j => f j (S m - j)%nat)).
    rewrite IH.
    change (fsum (S (S m)) (fun j => fsum (S (S m - j)) (fun t => f j t)))
      with (fsum (S m) (fun j => fsum (S (S m - j)) (fun t => f j t)) + fsum (S (S m - S m)) (fun t => f (S m) t)).
    rewrite (fsum_ext F (S m) (fun j => fsum (S (S m - j)) (fun t => f j t))
               (fun j => fsum (S (m - j)) (fun t => f j t) + f j (S m - j)%nat)).
    2:{ intros j Hj. replace (S (S m - j)) with (S (S (m - j))) by lia.
        cbn [fsum]. replace (S (m - j)) with (S m - j)%nat by lia. reflexivity. }
    rewrite fsum_add.
    change (fsum (S (S m)) (fun j => f j (S m - j)%nat))
      with (fsum (S m) (fun j => f j (S m - j)%nat) + f (S m) (S m - S m)%nat).
    rewrite Nat.sub_diag. cbn [fsum]. ring.
  Qed.

  (** coefficient of the product *)
  Definition convc (p q : nat -> F) (m : nat) : F := fsum (S m) (fun i => p i * q (m - i)%nat).
  Definition pmul (p q : list F) : list F :=
    map (convc (fun i => nth i p 0) (fun i => nth i q 0)) (seq 0 (length p + length q - 1)).

  Lemma pmul_length p q : length (pmul p q) = (length p + length q - 1)%nat.
  Proof. unfold pmul. rewrite map_length, seq_length. reflexivity. Qed.

  Lemma nth_map_seq (f : nat -> F) n i : (i < n)%nat -> nth i (map f (seq 0 n)) 0 = f i.
  Proof.
    intros H. rewrite (nth_indep _ 0 (f 0%nat)) by (rewrite map_length, seq_length; exact H).
    rewrite map_nth, seq_nth by exact H. reflexivity.
  Qed.

  Lemma convc_big p q m : p <> [] -> q <> [] -> (length p + length q - 1 <= m)%nat ->
    convc (fun i => nth i p 0) (fun i => nth i q 0) m = 0.
  Proof.
    intros Hp Hq Hm. apply fsum_zero. intros i Hi.
    assert (length p <> 0 /\ length q <> 0)%nat by (destruct p, q; cbn; split; congruence).
    destruct (Nat.lt_ge_cases i (length p)).
    - rewrite (nth_overflow q) by lia. ring.
    - rewrite (nth_overflow p) by lia. ring.
  Qed.

  Lemma nth_pmul p q m : p <> [] -> q <> [] ->
    nth m (pmul p q) 0 = convc (fun i => nth i p 0) (fun i => nth i q 0) m.
  Proof.
    intros Hp Hq. destruct (Nat.lt_ge_cases m (length p + length q - 1)) as [L|L].
    - apply nth_map_seq; exact L.
    - rewrite nth_overflow by (rewrite pmul_length; exact L). symmetry. apply convc_big; assumption.
  Qed.

  Lemma convc_ext p p' q q' m : (forall i, p i = p' i) -> (forall i, q i = q' i) ->
    convc p q m = convc p' q' m.
  Proof. intros H1 H2. apply fsum_ext. intros i _. rewrite H1, H2. reflexivity. Qed.

  Lemma convc_assoc p q r m : convc (convc p q) r m = convc p (convc q r) m.
  Proof.
    unfold convc at 1 3.
    transitivity (fsum (S m) (fun i => fsum (S i) (fun j => p j * (q (i - j)%nat * r (m - j - (i - j))%nat)))).
    - apply fsum_ext. intros i Hi. unfold convc. rewrite <- fsum_scale_r. apply fsum_ext. intros j Hj.
      replace (m - j - (i - j))%nat with (m - i)%nat by lia. ring.
    - rewrite (fsum_triangle m (fun j t => p j * (q t * r (m - j - t)%nat))).
      apply fsum_ext. intros j Hj. rewrite fsum_scale. reflexivity.
  Qed.

  Lemma pmul_nonempty p q : p <> [] -> q <> [] -> pmul p q <> [].
  Proof.
    intros Hp Hq E. apply (f_equal (@length F)) in E. rewrite pmul_length in E.
    destruct p, q; cbn in *; try congruence. lia.
  Qed.

  Lemma pmul_assoc p q r : p <> [] -> q <> [] -> r <> [] -> pmul (pmul p q) r = pmul p (pmul q r).
  Proof.
    intros Hp Hq Hr. apply (nth_ext _ _ 0 0).
    - rewrite !pmul_length. destruct p, q, r; cbn in *; try congruence. lia.
    - intros m _. rewrite !nth_pmul by (try apply pmul_nonempty; assumption).
      transitivity (convc (convc (fun i => nth i p 0) (fun i => nth i q 0)) (fun i => nth i r 0) m).
      + apply convc_ext; [intros i; apply nth_pmul; assumption|reflexivity].
      + rewrite convc_assoc. apply convc_ext; [reflexivity|]. intros i. symmetry. apply nth_pmul; assumption.
  Qed.

  Lemma pmul_1_r p : p <> [] -> pmul p [1] = p.
  Proof.
    intros Hp. apply (nth_ext _ _ 0 0).
    - rewrite pmul_length. destruct p; cbn in *; [congruence|lia].
    - intros m _. rewrite nth_pmul by (try assumption; discriminate). unfold convc.
      rewrite (fsum_single F (S m) m).
      + rewrite Nat.sub_diag. cbn [nth]. ring.
      + lia.
      + intros i Hi Hne. rewrite (nth_overflow [1]) by (cbn; lia). ring.
  Qed.

  Lemma peval_pmul p q x : p <> [] -> q <> [] -> peval (pmul p q) x = peval p x * peval q x.
  Proof.
    intros Hp Hq. set (N := (length p + length q)%nat).
    rewrite (peval_nth_ge F (pmul p q) (S N)) by (rewrite pmul_length; unfold N; lia).
    rewrite (fsum_ext F (S N) _ (fun m => fsum (S m) (fun i => (nth i p 0 * x ^ i) * (nth (m - i) q 0 * x ^ (m - i))))).
    2:{ intros m _. rewrite nth_pmul by assumption. unfold convc. rewrite <- fsum_scale_r. apply fsum_ext.
        intros i Hi. replace (x ^ m) with (x ^ i * x ^ (m - i)) by (rewrite <- fpow_add; f_equal; lia). ring. }
    rewrite (fsum_triangle N (fun i t => (nth i p 0 * x ^ i) * (nth t q 0 * x ^ t))).
    rewrite (peval_nth_ge F p (S N)) by (unfold N; lia). rewrite <- fsum_scale_r.
    apply fsum_ext. intros i Hi. rewrite fsum_scale.
    destruct (Nat.lt_ge_cases i (length p)) as [L|L].
    - rewrite (peval_nth_ge F q (S (N - i))) by (unfold N; lia). reflexivity.
    - rewrite (nth_overflow p) by exact L. ring.
  Qed.

  Lemma mul_linear_pmul r p : p <> [] -> mul_linear r p = pmul [- r; 1] p.
  Proof.
    intros Hp. apply (nth_ext _ _ 0 0).
    - unfold mul_linear. rewrite map_length, seq_length, pmul_length. cbn [length]. lia.
    - unfold mul_linear at 1. rewrite map_length, seq_length. intros m Hm.
      rewrite nth_pmul by (try assumption; discriminate).
      unfold mul_linear. rewrite nth_map_seq by exact Hm. unfold convc.
      destruct m as [|m].
      + cbn [fsum nth Nat.sub]. ring.
      + rewrite fsum_S_first. rewrite (fsum_single F (S m) 0%nat).
        * cbn [nth]. rewrite !Nat.sub_0_r, Nat.sub_succ, Nat.sub_0_r. ring.
        * lia.
        * intros i Hi Hne. rewrite (nth_overflow [- r; 1]) by (cbn; lia). ring.
  Qed.

  Lemma roots_poly_length (rs : list F) : length (roots_poly rs) = S (length rs).
  Proof.
    induction rs as [|r rs IH]; [reflexivity|]. cbn [roots_poly].
    unfold mul_linear. rewrite map_length, seq_length, IH. reflexivity.
  Qed.
  Lemma roots_poly_nonempty (rs : list F) : roots_poly rs <> [].
  Proof. intros E. apply (f_equal (@length F)) in E. rewrite roots_poly_length in E. discriminate. Qed.

  Lemma roots_poly_monic (rs : list F) : monic_product_of (roots_poly rs) rs.
  Proof.
    split; [apply roots_poly_length|]. induction rs as [|r rs [IH1 IH2]].
    - split; [reflexivity|]. intros x. cbn. ring.
    - cbn [roots_poly length]. split.
      + unfold mul_linear. rewrite roots_poly_length. rewrite nth_map_seq by lia.
        rewrite IH1. rewrite nth_overflow by (rewrite roots_poly_length; lia). ring.
      + intros x. rewrite mul_linear_pmul by apply roots_poly_nonempty.
        rewrite peval_pmul by (try discriminate; apply roots_poly_nonempty).
        rewrite IH2. cbn [map]. unfold lprod. cbn [fold_right peval]. ring.
  Qed.

  (** product of a list of polynomials *)
  Fixpoint pprod (ps : list (list F)) : list F :=
    match ps with [] => [1] | p :: ps' => pmul p (pprod ps') end.
  Definition nonempty_all (ps : list (list F)) := Forall (fun p => p <> []) ps.

  Lemma pprod_nonempty ps : nonempty_all ps -> pprod ps <> [].
  Proof. induction 1; cbn [pprod]; [discriminate|]. apply pmul_nonempty; assumption. Qed.

  Lemma pprod_roots (rs : list F) : pprod (map (fun r => [- r; 1]) rs) = roots_poly rs.
  Proof.
    induction rs as [|r rs IH]; [reflexivity|]. cbn [map pprod roots_poly].
    rewrite IH, mul_linear_pmul by apply roots_poly_nonempty. reflexivity.
  Qed.

  Definition degsum (ps : list (list F)) : nat := fold_right (fun p s => (length p - 1 + s)%nat) 0%nat ps.

  (** ** one pairwise product *)
  Variable T : TwoAdic F.
  Variable threads : nat.
  Hypothesis Hthreads : (0 < threads)%nat.

  Lemma pointwise_nth (a b : list F) i : length a = length b ->
    nth i (pointwise a b) 0 = nth i a 0 * nth i b 0 /\ length (pointwise a b) = length a.
  Proof.
    revert b i. induction a as [|x a IH]; intros [|y b] i H; try discriminate.
    - cbn. split; [destruct i; ring|reflexivity].
    - cbn [pointwise length]. destruct (IH b (pred i) ltac:(cbn in H; lia)) as [E L].
      split; [|rewrite L; reflexivity]. destruct i as [|i]; [reflexivity|]. cbn [nth pred] in *. exact E.
  Qed.

  Lemma peval_pad (p : list F) n x : peval (p ++ repeat 0 n) x = peval p x.
  Proof. rewrite peval_app, peval_zeros. ring. Qed.

  Lemma d_fft_ok k d (a : list F) : dom_ok F T k d -> (k <= 32)%nat -> length a = (2 ^ k)%nat ->
    exists r, d_fft threads d a = Some r /\ length r = (2 ^ k)%nat /\
      forall i, (i < 2 ^ k)%nat -> nth i r 0 = peval a (d_omega d ^ i).
  Proof.
    intros D Hk Ha. destruct (ring_fft_ok F T (FieldMod F) threads k d a D Hk Hthreads Ha) as (r & E & L & N).
    exists r. split; [exact E|]. split; [exact L|]. intros i Hi. 
    change (nth i r 0) with (nth i r (@m0 F (FieldMod F))). rewrite N by exact Hi. rewrite msum_fsum.
    rewrite peval_fsum, Ha. apply fsum_ext. intros j _. cbn. ring.
  Qed.

  Lemma log2_next_pow2 x : Nat.log2 (next_pow2 x) = Nat.log2_up x.
  Proof. unfold next_pow2. apply Nat.log2_pow2. lia. Qed.

  Lemma next_pow2_le x : (x <= next_pow2 x)%nat.
  Proof.
    unfold next_pow2. destruct (Nat.eq_dec x 0) as [->|]; [cbn; lia|].
    destruct (Nat.eq_dec x 1) as [->|]; [cbn; lia|]. apply Nat.log2_up_spec. lia.
  Qed.

  Lemma next_pow2_mono x y : (x <= y)%nat -> (next_pow2 x <= next_pow2 y)%nat.
  Proof. intros H. unfold next_pow2. apply Nat.pow_le_mono_r; [lia|]. apply Nat.log2_up_le_mono. exact H. Qed.

  Lemma mul_pair_ok maxd p q : p <> [] -> q <> [] ->
    (Nat.log2_up (length p + length q - 1) <= ta_S T)%nat ->
    (Nat.log2_up (length p + length q - 1) <= 32)%nat ->
    (next_pow2 (length p + length q - 1) <= maxd)%nat ->
    mul_pair T threads maxd p q = Some (pmul p q).
  Proof.
    intros Hp Hq HS H32 Hmax. unfold mul_pair.
    assert (Lp : (length p <> 0)%nat) by (destruct p; cbn; congruence).
    assert (Lq : (length q <> 0)%nat) by (destruct q; cbn; congruence).
    replace (length p - 1 + (length q - 1) + 1)%nat with (length p + length q - 1)%nat by lia.
    rewrite log2_next_pow2. set (len := (length p + length q - 1)%nat) in *.
    set (k := Nat.log2_up len) in *.
    destruct (domain_new_ok F T k HS) as (d & -> & D). rewrite (do_n _ _ _ _ D).
    change (2 ^ k)%nat with (next_pow2 len). pose proof (next_pow2_le len) as Hle.
    destruct (Nat.leb_spec (next_pow2 len) maxd); [|lia].
    destruct (Nat.leb_spec (length p) (next_pow2 len)); [|unfold len in *; lia].
    destruct (Nat.leb_spec (length q) (next_pow2 len)); [|unfold len in *; lia]. cbn [andb].
    set (n := next_pow2 len) in *.
    destruct (d_fft_ok k d (p ++ repeat 0 (n - length p)) D H32) as (s1 & -> & L1 & N1).
    { rewrite app_length, repeat_length. change (2 ^ k)%nat with n. lia. }
    destruct (d_fft_ok k d (q ++ repeat 0 (n - length q)) D H32) as (s2 & -> & L2 & N2).
    { rewrite app_length, repeat_length. change (2 ^ k)%nat with n. lia. }
    set (c := pmul p q ++ repeat 0 (n - len)).
    assert (Lc : length c = (2 ^ k)%nat).
    { unfold c. rewrite app_length, pmul_length, repeat_length. fold len. change (2 ^ k)%nat with n. lia. }
    destruct (d_fft_ok k d c D H32 Lc) as (e & E & Le & Ne).
    assert (Epw : pointwise s1 s2 = e).
    { destruct (pointwise_nth s1 s2 0%nat ltac:(lia)) as [_ Lpw].
      apply (nth_ext _ _ 0 0); [lia|]. intros i Hi. rewrite Lpw in Hi.
      destruct (pointwise_nth s1 s2 i ltac:(lia)) as [-> _].
      rewrite N1, N2, Ne by lia. unfold c. rewrite !peval_pad. symmetry. apply peval_pmul; assumption. }
    destruct (ifft_fft F T (FieldMod F) threads threads k d c D H32 Hthreads Hthreads Lc) as (e' & E1 & E2).
    assert (e' = e) by (unfold d_fft in E; congruence). subst e'.
    unfold d_ifft. rewrite Epw, E2. f_equal. unfold c.
    rewrite firstn_app, pmul_length. fold len. rewrite Nat.sub_diag, firstn_O, app_nil_r.
    apply firstn_all2. rewrite pmul_length. lia.
  Qed.

  (** ** one pass over the pairs *)
  (* what the pass computes: products of consecutive pairs, odd last kept *)
  Fixpoint pair_up (ps : list (list F)) : list (list F) :=
    match ps with
    | p :: q :: ps' => pmul p q :: pair_up ps'
    | rest => rest
    end.


  Lemma two_step {A} (P : list A -> Prop) : P [] -> (forall a, P [a]) ->
    (forall a b l, P l -> P (a :: b :: l)) -> forall l, P l.
  Proof.
    intros H0 H1 H2 l. assert (G : forall n l, (length l <= n)%nat -> P l).
    { induction n as [|n IH]; intros l' Hl.
      - destruct l'; [exact H0|cbn in Hl; lia].
      - destruct l' as [|a [|b l']]; [exact H0|apply H1|]. apply H2. apply IH. cbn in Hl. lia. }
    apply (G (length l)). lia.
  Qed.

  Lemma pair_up_length ps : length (pair_up ps) = ((length ps + 1) / 2)%nat.
  Proof.
    induction ps as [|a|a b l IH] using two_step; [reflexivity|reflexivity|].
    cbn [pair_up length]. rewrite IH. replace (S (S (length l)) + 1)%nat with (length l + 1 + 1 * 2)%nat by lia.
    rewrite Nat.div_add by lia. lia.
  Qed.

  Lemma nth_pair_up ps j :
    nth j (pair_up ps) [] = if (2 * j + 1 <? length ps)%nat then pmul (nth (2 * j) ps []) (nth (2 * j + 1) ps [])
                            else nth (2 * j) ps [].
  Proof.
    revert j. induction ps as [|a|a b l IH] using two_step; intros j.
    - cbn [pair_up length]. destruct (Nat.ltb_spec (2 * j + 1) 0); [lia|]. rewrite !nth_overflow by (cbn; lia). reflexivity.
    - cbn [pair_up length]. destruct (Nat.ltb_spec (2 * j + 1) 1); [lia|]. destruct j as [|j]; [reflexivity|].
      rewrite !nth_overflow by (cbn [length]; lia). reflexivity.
    - cbn [pair_up length]. destruct j as [|j]; [reflexivity|]. cbn [nth].
      rewrite IH. replace (2 * S j)%nat with (S (S (2 * j))) by lia.
      cbn [nth Nat.add]. 
      destruct (Nat.ltb_spec (2 * j + 1) (length l)), (Nat.ltb_spec (S (S (2 * j + 1))) (S (S (length l)))); try lia; reflexivity.
  Qed.

  Lemma pair_up_nonempty ps : nonempty_all ps -> nonempty_all (pair_up ps).
  Proof.
    unfold nonempty_all. induction ps as [|a|a b l IH] using two_step; intros H; auto.
    inversion H as [|? ? Ha H']; subst. inversion H' as [|? ? Hb Hl]; subst.
    cbn [pair_up]. constructor; [apply pmul_nonempty; assumption|auto].
  Qed.

  Lemma pprod_pair_up ps : nonempty_all ps -> pprod (pair_up ps) = pprod ps.
  Proof.
    unfold nonempty_all. induction ps as [|a|a b l IH] using two_step; intros H; auto.
    inversion H as [|? ? Ha H']; subst. inversion H' as [|? ? Hb Hl]; subst.
    cbn [pair_up pprod]. rewrite IH by exact Hl. apply pmul_assoc; auto. apply pprod_nonempty; exact Hl.
  Qed.

  Lemma degsum_pair_up ps : nonempty_all ps -> degsum (pair_up ps) = degsum ps.
  Proof.
    unfold nonempty_all. induction ps as [|a|a b l IH] using two_step; intros H; auto.
    inversion H as [|? ? Ha H']; subst. inversion H' as [|? ? Hb Hl]; subst.
    cbn [pair_up]. unfold degsum in *. cbn [fold_right]. rewrite IH by exact Hl. rewrite pmul_length.
    destruct a, b; cbn [length]; try congruence. lia.
  Qed.

  Lemma degsum_pair ps i : (2 * i + 1 < length ps)%nat ->
    (length (nth (2 * i) ps []) - 1 + (length (nth (2 * i + 1) ps []) - 1) <= degsum ps)%nat.
  Proof.
    revert i. induction ps as [|a|a b l IH] using two_step; intros i Hi; cbn [length] in Hi; [lia|lia|].
    unfold degsum in *. cbn [fold_right]. destruct i as [|i]; [cbn; lia|].
    specialize (IH i ltac:(lia)). replace (2 * S i)%nat with (S (S (2 * i))) by lia.
    cbn [nth Nat.add]. lia.
  Qed.

  Lemma nth_upd {A} (l : list A) i v j d : (i < length l)%nat ->
    nth j (upd l i v) d = if (i =? j)%nat then v else nth j l d.
  Proof.
    revert i j. induction l as [|a l IH]; intros i j H; [cbn in H; lia|].
    destruct i as [|i], j as [|j]; cbn [upd nth Nat.eqb]; try reflexivity. apply IH. cbn in H. lia.
  Qed.

  Section Pass.
    Variable maxdeg : nat.
    Hypothesis HS : (Nat.log2_up (maxdeg + 1) <= ta_S T)%nat.
    Hypothesis H32 : (Nat.log2_up (maxdeg + 1) <= 32)%nat.

    Lemma mul_pair_fits p q : p <> [] -> q <> [] ->
      (length p - 1 + (length q - 1) <= maxdeg)%nat ->
      mul_pair T threads (next_pow2 (maxdeg + 1)) p q = Some (pmul p q).
    Proof.
      intros Hp Hq H.
      assert (Lp : (length p <> 0)%nat) by (destruct p; cbn; congruence).
      assert (Lq : (length q <> 0)%nat) by (destruct q; cbn; congruence).
      assert (L : (Nat.log2_up (length p + length q - 1) <= Nat.log2_up (maxdeg + 1))%nat)
        by (apply Nat.log2_up_le_mono; lia).
      apply mul_pair_ok; auto; try lia. apply next_pow2_mono. lia.
    Qed.

    Lemma pair_loop_ok ps : nonempty_all ps -> (degsum ps <= maxdeg)%nat ->
      forall m s cur, (2 * (s + m) <= length ps)%nat -> length cur = length ps ->
        (forall j, (s <= j)%nat -> nth j cur [] = nth j ps []) ->
        exists r, pair_loop T threads (next_pow2 (maxdeg + 1)) (seq s m) cur = Some r /\
          length r = length ps /\
          (forall j, nth j r [] = if (s <=? j) && (j <? s + m) then pmul (nth (2 * j) ps []) (nth (2 * j + 1) ps [])
                                  else nth j cur [])%nat%bool.
    Proof.
      intros HN Hd. induction m as [|m IH]; intros s cur Hlen Hc Hsame.
      - cbn [seq pair_loop]. exists cur. repeat split; auto. intros j.
        destruct (Nat.leb_spec s j), (Nat.ltb_spec j (s + 0)); try lia; reflexivity.
      - cbn [seq pair_loop]. rewrite !Hsame by lia.
        assert (NE : forall i, (i < length ps)%nat -> nth i ps [] <> []).
        { intros i Hi. unfold nonempty_all in HN. rewrite Forall_forall in HN. apply HN. apply nth_In. exact Hi. }
        rewrite mul_pair_fits.
        2: { apply NE. lia. } 2: { apply NE. lia. }
        2: { pose proof (degsum_pair ps s ltac:(lia)). lia. }
        destruct (IH (S s) (upd cur s (pmul (nth (2 * s) ps []) (nth (2 * s + 1) ps [])))) as (r & E & L & N).
        + lia.
        + rewrite upd_length. exact Hc.
        + intros j Hj. rewrite nth_upd by lia. destruct (Nat.eqb_spec s j); [lia|]. apply Hsame. lia.
        + exists r. split; [exact E|]. split; [exact L|]. intros j. rewrite N, nth_upd by lia.
          destruct (Nat.eqb_spec s j) as [->|Hne].
          * destruct (Nat.leb_spec (S j) j), (Nat.leb_spec j j), (Nat.ltb_spec j (j + S m)); try lia. reflexivity.
          * destruct (Nat.leb_spec (S s) j), (Nat.leb_spec s j); try lia;
            destruct (Nat.ltb_spec j (S s + m)), (Nat.ltb_spec j (s + S m)); try lia; reflexivity.
    Qed.

    Lemma roots_loop_ok : forall fuel ps, nonempty_all ps -> (degsum ps <= maxdeg)%nat ->
      ps <> [] -> (length ps <= S fuel)%nat ->
      roots_loop T threads fuel (next_pow2 (maxdeg + 1)) ps = Some [pprod ps].
    Proof.
      assert (Base : forall ps, nonempty_all ps -> ps <> [] -> (length ps <= 1)%nat -> ps = [pprod ps]).
      { intros ps HN Hne Hl. destruct ps as [|p [|]]; [congruence| |cbn in Hl; lia].
        cbn [pprod]. inversion HN; subst. rewrite pmul_1_r by assumption. reflexivity. }
      induction fuel as [|fuel IH]; intros ps HN Hd Hne Hf.
      - cbn [roots_loop]. destruct (Nat.leb_spec (length ps) 1); [|lia]. f_equal. apply Base; auto.
      - cbn [roots_loop]. destruct (Nat.leb_spec (length ps) 1) as [L1|L1]; [f_equal; apply Base; auto|].
        pose proof (Nat.div_mod (length ps) 2 ltac:(lia)) as DM.
        pose proof (Nat.mod_upper_bound (length ps) 2 ltac:(lia)) as MB.
        set (pairs := (length ps / 2)%nat) in *.
        destruct (pair_loop_ok ps HN Hd pairs 0%nat ps) as (r & -> & L & N); [lia|reflexivity|reflexivity|].
        rewrite L.
        assert (ER : firstn (pairs + (if (length ps mod 2 =? 1)%nat then 1 else 0))
                  (if (length ps mod 2 =? 1)%nat && (pairs <? length ps - 1)%nat then swap r pairs (length ps - 1) else r)
                = pair_up ps).
        { apply (nth_ext _ _ [] []).
          - rewrite firstn_length, pair_up_length.
            assert (E2 : ((length ps + 1) / 2 = pairs + (if (length ps mod 2 =? 1)%nat then 1 else 0))%nat).
            { destruct (Nat.eqb_spec (length ps mod 2) 1) as [E|E].
              - replace (length ps + 1)%nat with ((pairs + 1) * 2)%nat by lia. apply Nat.div_mul. lia.
              - replace (length ps + 1)%nat with (1 + pairs * 2)%nat by lia. rewrite Nat.div_add by lia. cbn. lia. }
            rewrite E2. apply Nat.min_l.
            destruct (Nat.eqb_spec (length ps mod 2) 1); destruct (pairs <? length ps - 1)%nat; cbn [andb];
              rewrite ?swap_length, L; lia.
          - intros j Hj. rewrite firstn_length in Hj.
            rewrite nth_firstn_lt by lia. rewrite nth_pair_up.
            assert (Nr : forall j, (j < pairs)%nat -> nth j r [] = pmul (nth (2 * j) ps []) (nth (2 * j + 1) ps [])).
            { intros j' Hj'. rewrite N. destruct (Nat.leb_spec 0 j'), (Nat.ltb_spec j' (0 + pairs)); try lia. reflexivity. }
            destruct (Nat.eqb_spec (length ps mod 2) 1) as [E|E].
            + destruct (Nat.ltb_spec pairs (length ps - 1)) as [Hlt|Hge]; [|lia]. cbn [andb].
              assert (Esw : forall j, nth j (swap r pairs (length ps - 1)) []
                       = if (length ps - 1 =? j)%nat then nth pairs r [] else if (pairs =? j)%nat then nth (length ps - 1) r [] else nth j r []).
              { intros j'. rewrite <- !nth_default_eq. unfold nth_default. rewrite nth_error_swap by (rewrite L; lia).
                destruct (length ps - 1 =? j')%nat; [reflexivity|]. destruct (pairs =? j')%nat; reflexivity. }
              rewrite Esw. destruct (Nat.eqb_spec (length ps - 1) j); [lia|].
              destruct (Nat.eqb_spec pairs j) as [<-|Hnj].
              * rewrite N. destruct (Nat.leb_spec 0 (length ps - 1)), (Nat.ltb_spec (length ps - 1) (0 + pairs)); try lia.
                cbn [andb]. destruct (Nat.ltb_spec (2 * pairs + 1) (length ps)); [lia|]. f_equal. lia.
              * rewrite Nr by lia. destruct (Nat.ltb_spec (2 * j + 1) (length ps)); [reflexivity|lia].
            + cbn [andb]. rewrite Nr by lia. destruct (Nat.ltb_spec (2 * j + 1) (length ps)); [reflexivity|lia]. }
        rewrite ER. rewrite IH.
        + rewrite pprod_pair_up by exact HN. reflexivity.
        + apply pair_up_nonempty; exact HN.
        + rewrite degsum_pair_up by exact HN. exact Hd.
        + intros E. apply (f_equal (@length _)) in E. rewrite pair_up_length in E. cbn [length] in E.
          apply Nat.div_small_iff in E; lia.
        + rewrite pair_up_length. apply Nat.lt_succ_r. apply Nat.div_lt_upper_bound; lia.
    Qed.
  End Pass.

  Theorem poly_with_roots_ok (roots : list F) :
    (Nat.log2_up (length roots + 1) <= ta_S T)%nat -> (Nat.log2_up (length roots + 1) <= 32)%nat ->
    poly_with_roots T threads roots = Some (roots_poly roots).
  Proof.
    intros HS H32. unfold poly_with_roots. destruct roots as [|r0 rs] eqn:E; [reflexivity|]. rewrite <- E in *.
    assert (Hdeg : forall l : list F, degsum (map (fun r => [- r; 1]) l) = length l).
    { induction l as [|a l IH]; [reflexivity|]. unfold degsum in *. cbn [map fold_right length]. rewrite IH. lia. }
    rewrite roots_loop_ok.
    - rewrite pprod_roots. reflexivity.
    - exact HS.
    - exact H32.
    - unfold nonempty_all. apply Forall_forall. intros p Hp. apply in_map_iff in Hp.
      destruct Hp as (r & <- & _). discriminate.
    - rewrite Hdeg. lia.
    - rewrite E. discriminate.
    - lia.
  Qed.
End Conv.
