(** Forked runs of a step: the registry polynomials, the folded claims and the bonds. *)
From Coq Require Import List Arith NArith Bool Lia Ring Field Permutation.
From Verif Require Import FieldDef ModDef ArithModel SparseModel SparseSpec SparseProofs SparseProofs2 FoldModel FoldSpec FoldProofs FoldProofs2 FoldProofs3 TModel TProofs ClaimModel
  PcdModel PcdSpec PcdProofs PcdProofs2 Props_Fold Props_Pcd RecModel RecSpec QvModel QvProofs QvProofs2 Props_Rec Props_Qv Props_Qv2 VerifySpec AccSpec AccProofs.
Import ListNotations.
Open Scope f_scope.
Local Open Scope nat_scope.

Lemma nc0 lg : 0 < 4 * 2 ^ lg.
Proof. pose proof (Nat.pow_nonzero 2 lg). lia. Qed.

Section Acc2.
  Variables (F : Field) (lg log2 M N : nat) (cb : F) (nbits : nat) (gen zeta : F) (om : nat -> F) (rv : regview F).
  Add Field FFu21 : (f_theory F).
  Local Notation n := (2 ^ lg).
  Local Notation NC := (4 * 2 ^ lg).
  Variables (l r : pvals F) (pl pr : ceval (poly F)) (il ir : nat).
  Local Notation omega := (fun id => om (internal_index id)).
  Local Notation cden := (cden F).
  Local Notation u0 := (u0 F).
  Hypothesis Wl : Forall (wf 0 NC) (ceval_write pl).
  Hypothesis Wr : Forall (wf 0 NC) (ceval_write pr).
  Hypothesis NB : ~ is_base l r.
  Hypothesis RV : reg_view_ok NC om (fun i => i < 13 \/ i = il \/ i = ir) rv.
  Hypothesis Cl : pv_cid l = om il.
  Hypothesis Cr : pv_cid r = om ir.
  Hypothesis HM : 0 < M.
  Hypothesis HMN : 22 <= M * N.
  Local Notation sy := (rv_sy rv).
  Local Notation m := (rv_m rv).
  Local Notation vs y := [acc_view l pl il y; acc_view r pr ir y].
  Local Notation claims := (build_claims (source_of [child_view pl il; child_view pr ir])).
  Local Notation kys y := (map (ky_values (two_ky f0 (uv_el (pv_uni l) Uc) (uv_el (pv_uni r) Uc) (child_k l y) (child_k r y))) (seq 0 (N * M))).

  (** the polynomials of the children's claims at y, z *)
  Definition claim_polys (y z : F) (l : list (poly F * poly F)) : Prop :=
    Forall2 (fun c ab => wf 0 NC (fst ab) /\ wf 0 NC (snd ab) /\ (forall j, coeff_at (fst ab) j = a_coeff z c j) /\ (forall j, coeff_at (snd ab) j = b_coeff n z (sy y) c j)) claims l.
  Lemma claim_polys_ex y z : exists B1, claim_polys y z B1.
  Proof.
    destruct (b_all_ok F n z (fun i => Some (sy y i)) (sy y)) with (cs := claims) as (B1 & _ & H2).
    - intros i Hi. split; [reflexivity|]. apply (rvo_slot _ _ _ _ RV). auto.
    - apply build_all; [discriminate|]. rewrite Forall_forall in Wl, Wr. intros v [<-|[<-|[]]]; (split; [intros c|split; [reflexivity|apply (rvo_slot _ _ _ _ RV); cbn; auto]]).
      + apply Wl. unfold ceval_write. cbn [map app rxid_all]. destruct c as [| |[]]; cbn [pv_rx child_view In]; tauto.
      + apply Wr. unfold ceval_write. cbn [map app rxid_all]. destruct c as [| |[]]; cbn [pv_rx child_view In]; tauto.
    - exists B1. exact H2.
  Qed.
  Lemma claim_polys_wf y z B1 : claim_polys y z B1 -> length B1 = 22 /\ Forall (wf 0 NC) (map fst B1) /\ Forall (wf 0 NC) (map snd B1).
  Proof.
    intros H. split; [symmetry; exact (forall2_len _ _ _ H)|]. unfold claim_polys in H. revert H. generalize claims. intros cs H. split; induction H as [|c ab cs B1 (A1 & A2 & _) _ IH]; cbn [map]; constructor; auto.
  Qed.

  Definition lv_x (w y z : F) (wx0 wx1 wy : poly F) (ie : list (list F)) (mu nu : F) (oe : ovals F) (mu' nu' : F) (A B : poly F) : Prop :=
    many NC (fun x => exists q xy, wf 0 NC xy /\ (forall t, p_eval NC xy t = m t x y) /\
    many 55 (fun al => exists f, wf 0 NC f /\
    many (NC + 55) (fun u => exists e,
    many 37 (fun be => run_ok lg log2 M N cb nbits gen zeta om l r pl pr w y z wx0 wx1 wy ie mu nu oe mu' nu' A B x q xy al f u e be)))).

  Section Lx.
  Variables (w y z : F) (wx0 wx1 wy : poly F) (ie : list (list F)) (mu nu : F) (oe : ovals F) (mu' nu' : F) (A B : poly F).
  Hypothesis W0 : wf 0 NC wx0. Hypothesis W1 : wf 0 NC wx1. Hypothesis Wy : wf 0 NC wy.
  Hypothesis WA : wf 0 NC A. Hypothesis WB : wf 0 NC B.
  Hypothesis Lie : length ie = N.
  Hypothesis Loe : length (ov_collapsed oe) = N.
  Hypothesis H : lv_x w y z wx0 wx1 wy ie mu nu oe mu' nu' A B.

  Lemma at_nu' :
    (z <> f0 /\ mu <> f0 /\ mu' <> f0) /\
    (p_eval NC (ce_p pl) (uv_el (pv_uni l) Uu) = uv_el (pv_uni l) Uv /\ p_eval NC (ce_p pr) (uv_el (pv_uni r) Uu) = uv_el (pv_uni r) Uv) /\
    (p_eval NC wx0 y = m w (uv_el (pv_uni l) Ux) y /\ p_eval NC wx1 y = m w (uv_el (pv_uni r) Ux) y /\
     p_eval NC wx0 (uv_el (pv_uni l) Uy) = p_eval NC (ce_xy pl) w /\ p_eval NC wx1 (uv_el (pv_uni r) Uy) = p_eval NC (ce_xy pr) w) /\
    forall B1 A1 B1' A' B', claim_polys y z B1 ->
      fold_inner (poly_foldable NC) M N (map fst B1) (finv mu) = Some A1 -> fold_inner (poly_foldable NC) M N (map snd B1) (fmul mu nu) = Some B1' ->
      fold_outer (poly_foldable NC) A1 (finv mu') = Some A' -> fold_outer (poly_foldable NC) B1' (fmul mu' nu') = Some B' ->
      weigh N (finv mu') (fmul mu' nu') (entry N (ov_errs oe) (collapsed M N mu nu ie (kys y))) = p_revdot NC A' B'.
  Proof.
    assert (AX : many NC (fun x => exists q xy, wf 0 NC xy /\ (forall t, p_eval NC xy t = m t x y) /\
      (z <> f0 /\ mu <> f0 /\ mu' <> f0 /\ rdot NC A B = weigh N (finv mu') (fmul mu' nu') (entry N (ov_errs oe) (collapsed M N mu nu ie (kys y)))) /\
      p_eval NC (ce_p pl) (uv_el (pv_uni l) Uu) = uv_el (pv_uni l) Uv /\ p_eval NC (ce_p pr) (uv_el (pv_uni r) Uu) = uv_el (pv_uni r) Uv /\
      registry_consistent NC (mk_evalout pl pr wx0 wx1 wy A B xy) (cden l) (cden r) w y x /\
      (p_eval NC A (fmul x z), p_eval NC B x) = axbx n M N (native_query NC (mk_evalout pl pr wx0 wx1 wy A B xy) (cden l) (cden r) w y z x omega) (u0 w y z mu nu mu' nu' x) /\ @eq (queryout F) q q)).
    { revert H. apply many_impl. intros x (q & xy & Wxy & Exy & H55). exists q, xy. split; [exact Wxy|]. split; [exact Exy|].
      destruct (at_x F lg log2 M N cb nbits gen zeta om l r pl pr Wl Wr NB w y z wx0 wx1 wy ie mu nu oe mu' nu' A B x q xy W0 W1 Wy WA WB Wxy Lie Loe H55) as (X1 & X2 & X3 & X4 & X5). repeat (split; [assumption|]). reflexivity. }
    destruct (many_ex F NC _ (nc0 lg) AX) as (x1 & q1 & xy1 & _ & _ & (Z1 & Z2 & Z3 & EC) & Vl & Vr & RC & _).
    destruct RC as (R1 & R2 & R3 & R4 & _). unfold AccProofs.cden in R1, R2, R3, R4. cbn [eo_wx0 eo_wx1 eo_wy eo_left eo_right cd_y cd_x] in R1, R2, R3, R4.
    assert (EW : forall t, p_eval NC wy t = m w t y).
    { apply (many_eval F NC wy (fun t => m w t y)); auto; [apply (rvo_x _ _ _ _ RV)|]. revert AX. apply many_impl.
      intros x (q & xy & _ & Exy & _ & _ & _ & (_ & _ & _ & _ & R5) & _). cbn [eo_wy eo_xy] in R5. rewrite <- R5. apply Exy. }
    split; [auto|]. split; [auto|]. split; [|].
    { rewrite <- R3, <- R4, !EW. auto. }
    intros B1 A1 B1' A' B' CP EA1 EB1 EA EB. destruct (claim_polys_wf y z B1 CP) as (L1 & Wf & Ws).
    destruct (two_layers F NC M N (map fst B1) (map snd B1) (finv mu) (fmul mu nu) (finv mu') (fmul mu' nu') HM ltac:(rewrite map_length; lia) ltac:(rewrite map_length; lia) Wf Ws)
      as (A2 & B2 & A3 & B3 & E1 & E2 & _ & _ & _ & _ & E3 & E4 & WA' & WB' & _).
    assert (A2 = A1) as -> by congruence. assert (B2 = B1') as -> by congruence. assert (A3 = A') as -> by congruence. assert (B3 = B') as -> by congruence.
    assert (AB : many NC (fun x => p_eval NC A (fmul x z) = p_eval NC A' (fmul x z) /\ p_eval NC B x = p_eval NC B' x)).
    { revert AX. apply many_impl. intros x (q & xy & Wxy & Exy & _ & _ & _ & _ & E & _).
      pose proof (C38_ab_coeffs F lg M N (fun i => Some (sy y i)) (sy y) (mk_evalout pl pr wx0 wx1 wy A' B' xy) (cden l) (cden r) il ir omega (u0 w y z mu nu mu' nu' x) B1 A1 B1') as X.
      cbv zeta in X. cbn [eo_a eo_b eo_xy eo_left eo_right AccProofs.u0 uv_el] in X.
      assert (Y := X HM HMN (eval_write_wf F lg pl pr Wl Wr wx0 wx1 wy A' B' xy W0 W1 Wy WA' WB' Wxy)). clear X.
      assert (Sl : forall i, i < 13 \/ i = il \/ i = ir -> p_eval NC xy (om i) = p_eval NC (sy y i) x).
      { intros i Hi. rewrite Exy. symmetry. apply (rvo_slot _ _ _ _ RV). exact Hi. }
      assert (Y2 := Y ltac:(intros i Hi; split; [reflexivity|]; apply (rvo_slot _ _ _ _ RV); exact Hi)
                  ltac:(intros id; apply Sl; left; apply internal_lt) ltac:(change (cd_cid (cden l)) with (pv_cid l); rewrite Cl; apply Sl; auto) ltac:(change (cd_cid (cden r)) with (pv_cid r); rewrite Cr; apply Sl; auto) CP EA1 EA EB1 EB). clear Y.
      assert (E' := eq_trans E Y2). split; [exact (f_equal fst E')|exact (f_equal snd E')]. }
    rewrite <- EC. rewrite revdot_rdot by assumption.
    assert (CA : forall k, coeff_at A k = coeff_at A' k).
    { apply (many_poly F NC); auto. apply (many_scale F NC z _ Z1). revert AB. apply many_impl. intros x [X _]. exact X. }
    assert (CB : forall k, coeff_at B k = coeff_at B' k).
    { apply (many_poly F NC); auto. revert AB. apply many_impl. intros x [_ X]. exact X. }
    unfold rdot. apply fsum_ext. intros k _. now rewrite CA, CB.
  Qed.
  End Lx.

  Definition lv_mu (w y z : F) (wx0 wx1 wy : poly F) (ie : list (list F)) : Prop :=
    many M (fun mu => many M (fun nu => exists oe, length (ov_collapsed oe) = N /\
    many N (fun mu' => many N (fun nu' => exists A B, wf 0 NC A /\ wf 0 NC B /\ lv_x w y z wx0 wx1 wy ie mu nu oe mu' nu' A B)))).
  Lemma ky_nth y k : k < M * N -> nth k (kys y) f0 = ky_values (two_ky f0 (uv_el (pv_uni l) Uc) (uv_el (pv_uni r) Uc) (child_k l y) (child_k r y)) k.
  Proof.
    intros Hk. set (g := ky_values _). rewrite (nth_indep _ f0 (g 0)) by (rewrite map_length, seq_length; lia). rewrite (map_nth g), seq_nth by lia. reflexivity.
  Qed.
  Lemma zip_claims (y z : F) B1 : claim_polys y z B1 ->
    (forall k, k < 22 -> ky_values (two_ky f0 (uv_el (pv_uni l) Uc) (uv_el (pv_uni r) Uc) (child_k l y) (child_k r y)) k = p_revdot NC (nth k (map fst B1) []) (nth k (map snd B1) [])) ->
    Forall (claim_holds n z (sy y)) (flat_map own_claims (vs y) ++ bond_claims f0 (vs y)).
  Proof.
    intros CP HK. pose proof (native_perm f0 (vs y)) as PM. refine (Permutation_Forall PM _).
    change (kysource_of f0 (vs y)) with (two_ky f0 (uv_el (pv_uni l) Uc) (uv_el (pv_uni r) Uc) (child_k l y) (child_k r y)).
    change (build_claims (source_of (vs y))) with claims.
    revert HK. generalize (ky_values (two_ky f0 (uv_el (pv_uni l) Uc) (uv_el (pv_uni r) Uc) (child_k l y) (child_k r y))). intros g HK.
    change 22 with (length claims) in HK. unfold claim_polys in CP. revert CP HK. generalize claims. intros cs CP. unfold zip_ky.
    assert (G : forall s, (forall k, k < length cs -> g (s + k) = p_revdot NC (nth k (map fst B1) []) (nth k (map snd B1) [])) ->
      Forall (claim_holds n z (sy y)) (combine cs (map g (seq s (length cs))))).
    { induction CP as [|c [a b] cs B1 (Wa & Wb & Ca & Cb) _ IH]; intros s HK; cbn [length seq map combine]; [constructor|]. constructor.
      - unfold claim_holds. cbn [fst snd] in *. specialize (HK 0 ltac:(cbn; lia)). rewrite Nat.add_0_r in HK. cbn [map nth fst snd] in HK. rewrite HK.
        rewrite revdot_rdot by assumption. unfold rdot. apply fsum_ext. intros k _. now rewrite Ca, Cb.
      - apply IH. intros k Hk. specialize (HK (S k) ltac:(cbn; lia)). cbn [map nth] in HK. rewrite <- HK. f_equal. lia. }
    intros HK. apply G. exact HK.
  Qed.

  Lemma at_z w y z wx0 wx1 wy ie : wf 0 NC wx0 -> wf 0 NC wx1 -> wf 0 NC wy -> length ie = N -> lv_mu w y z wx0 wx1 wy ie ->
    (p_eval NC (ce_p pl) (uv_el (pv_uni l) Uu) = uv_el (pv_uni l) Uv /\ p_eval NC (ce_p pr) (uv_el (pv_uni r) Uu) = uv_el (pv_uni r) Uv) /\
    (p_eval NC wx0 y = m w (uv_el (pv_uni l) Ux) y /\ p_eval NC wx1 y = m w (uv_el (pv_uni r) Ux) y /\
     p_eval NC wx0 (uv_el (pv_uni l) Uy) = p_eval NC (ce_xy pl) w /\ p_eval NC wx1 (uv_el (pv_uni r) Uy) = p_eval NC (ce_xy pr) w) /\
    Forall (claim_holds n z (sy y)) (flat_map own_claims (vs y) ++ bond_claims f0 (vs y)).
  Proof.
    intros W0 W1 Wy Lie H. assert (HN : 0 < N) by nia.
    assert (Q : forall mu nu oe mu' nu' A B, length (ov_collapsed oe) = N -> wf 0 NC A -> wf 0 NC B -> lv_x w y z wx0 wx1 wy ie mu nu oe mu' nu' A B -> _)
      by (intros mu nu oe mu' nu' A B Lo WA WB HX; exact (at_nu' w y z wx0 wx1 wy ie mu nu oe mu' nu' A B W0 W1 Wy WA WB Lie Lo HX)).
    assert (Q0 : exists mu nu oe mu' nu' A B, length (ov_collapsed oe) = N /\ wf 0 NC A /\ wf 0 NC B /\ lv_x w y z wx0 wx1 wy ie mu nu oe mu' nu' A B).
    { destruct (many_ex F M _ HM H) as (mu & H1). destruct (many_ex F M _ HM H1) as (nu & oe & Lo & H2).
      destruct (many_ex F N _ HN H2) as (mu' & H3). destruct (many_ex F N _ HN H3) as (nu' & A & B & WA & WB & H4). exists mu, nu, oe, mu', nu', A, B. auto. }
    destruct Q0 as (mu0 & nu0 & oe0 & mu0' & nu0' & A0 & B0 & Lo0 & WA0 & WB0 & HX0).
    destruct (Q _ _ _ _ _ _ _ Lo0 WA0 WB0 HX0) as (_ & Op & Rg & _). split; [exact Op|]. split; [exact Rg|].
    destruct (claim_polys_ex y z) as (B1 & CP). destruct (claim_polys_wf y z B1 CP) as (L1 & Wf & Ws).
    apply (zip_claims y z B1 CP). destruct H as (mus & Nm & Lm & Hm).
    destruct (C27_sound F NC M N (map fst B1) (map snd B1) (kys y) ie mus HM) as [S _]; try assumption.
    - now rewrite !map_length.
    - rewrite map_length. lia.
    - intros mu Imu. destruct (Hm mu Imu) as (nus & Nn & Ln & Hn). split.
      + destruct nus as [|nu nus]; [cbn in Ln; lia|]. destruct (Hn nu (or_introl eq_refl)) as (oe & Lo & H2).
        destruct (many_ex F N _ HN H2) as (mu' & H3). destruct (many_ex F N _ HN H3) as (nu' & A & B & WA & WB & H4).
        exact (proj1 (proj2 (proj1 (Q _ _ _ _ _ _ _ Lo WA WB H4)))).
      + exists nus. split; [exact Nn|]. split; [exact Ln|]. intros nu Inu. destruct (Hn nu Inu) as (oe & Lo & mus' & Nm' & Lm' & Hm').
        exists (ov_errs oe), mus'. split; [exact Nm'|]. split; [exact Lm'|]. intros mu' Imu'. destruct (Hm' mu' Imu') as (nus' & Nn' & Ln' & Hn'). split.
        * destruct nus' as [|nu' nus']; [cbn in Ln'; lia|]. destruct (Hn' nu' (or_introl eq_refl)) as (A & B & WA & WB & H4).
          exact (proj2 (proj2 (proj1 (Q _ _ _ _ _ _ _ Lo WA WB H4)))).
        * exists nus'. split; [exact Nn'|]. split; [exact Ln'|]. intros nu' Inu' A1 B1' A' B' E1 E2 E3 E4.
          destruct (Hn' nu' Inu') as (A & B & WA & WB & H4). exact (proj2 (proj2 (proj2 (Q _ _ _ _ _ _ _ Lo WA WB H4))) B1 A1 B1' A' B' CP E1 E2 E3 E4).
    - intros k Hk. rewrite <- ky_nth by lia. apply S. rewrite map_length. lia.
  Qed.

  (** a bonded list of polynomials, each by itself *)
  Lemma bond_each (rs : list (poly F)) (g : nat -> F) : length rs <= NC ->
    many NC (fun z => fsum NC (fun k => hfold (length rs) z (fun i => coeff_at (nth i rs []) k) * g k)%F = f0) ->
    forall p, In p rs -> fsum NC (fun k => coeff_at p k * g k)%F = f0.
  Proof.
    intros L (zs & Nd & Lz & Hz) p Hp. apply In_nth with (d := []) in Hp. destruct Hp as (i & Hi & <-).
    pose proof (coeffs_zero F (length rs) (fun j => fsum NC (fun k => coeff_at (nth (length rs - 1 - j) rs []) k * g k)%F) zs Nd ltac:(lia)) as Z. cbv beta in Z.
    replace i with (length rs - 1 - (length rs - 1 - i)) by lia. apply Z; [|lia]. intros z Iz. rewrite <- (Hz z Iz).
    rewrite (fsum_ext F NC _ (fun k => fsum (length rs) (fun j => (fpow z j * coeff_at (nth (length rs - 1 - j) rs []) k) * g k)%F)).
    - rewrite fsum_swap. apply fsum_ext. intros j _. rewrite <- fsum_scale_r. apply fsum_ext. intros k _. ring.
    - intros k _. unfold hfold. rewrite <- fsum_scale_r, <- fsum_rev. apply fsum_ext. intros j Hj. replace (length rs - 1 - (length rs - 1 - j)) with j by lia. reflexivity.
  Qed.
  Lemma bond_fold (rs : list (poly F)) (g : nat -> F) z : (forall p, In p rs -> fsum NC (fun k => coeff_at p k * g k)%F = f0) ->
    fsum NC (fun k => hfold (length rs) z (fun i => coeff_at (nth i rs []) k) * g k)%F = f0.
  Proof.
    intros H. rewrite (fsum_ext F NC _ (fun k => fsum (length rs) (fun j => fpow z (length rs - 1 - j) * (coeff_at (nth j rs []) k * g k))%F)).
    - rewrite fsum_swap. apply fsum_zero. intros j Hj. rewrite fsum_scale, H by (apply nth_In; exact Hj). ring.
    - intros k _. unfold hfold. rewrite <- fsum_scale_r. apply fsum_ext. intros j _. ring.
  Qed.
  Lemma bonds_split (y : F) (a b : pview (poly F) nat F) : 6 <= NC ->
    many NC (fun z => Forall (claim_holds n z (sy y)) (bond_claims f0 [a; b])) ->
    forall v, v = a \/ v = b -> forall z, Forall (claim_holds n z (sy y)) (bond_claims f0 [v]).
  Proof.
    intros H6 H v Hv z. unfold bond_claims in *. apply Forall_forall. intros c Hc. apply in_map_iff in Hc. destruct Hc as (id & <- & Hid).
    unfold claim_holds. cbn [fst snd a_coeff b_coeff]. apply (bond_fold _ (fun k => coeff_at (sy y (internal_index id)) (NC - 1 - k)) z).
    intros p Hp. apply (bond_each (flat_map (fun i => map (fun v => pv_rx v (Rx i)) [a; b]) (bonded id)) (fun k => coeff_at (sy y (internal_index id)) (NC - 1 - k))).
    - destruct id; cbn [bonded flat_map map app length]; lia.
    - revert H. apply many_impl. intros z' Hz. rewrite Forall_forall in Hz.
      exact (Hz (CBond id (flat_map (fun i => map (fun v => pv_rx v (Rx i)) [a; b]) (bonded id)), f0) (in_map _ _ _ Hid)).
    - apply in_flat_map in Hp. destruct Hp as (i & Hi & Hp). apply in_flat_map. exists i. split; [exact Hi|]. cbn [map In] in *. destruct Hp as [<-|[]]. destruct Hv as [->| ->]; auto.
  Qed.

  (** one y *)
  Lemma at_y w y wx0 wx1 : 6 <= NC -> wf 0 NC wx0 -> wf 0 NC wx1 ->
    many NC (fun z => exists wy ie, wf 0 NC wy /\ length ie = N /\ lv_mu w y z wx0 wx1 wy ie) ->
    (p_eval NC (ce_p pl) (uv_el (pv_uni l) Uu) = uv_el (pv_uni l) Uv /\ p_eval NC (ce_p pr) (uv_el (pv_uni r) Uu) = uv_el (pv_uni r) Uv) /\
    (p_eval NC wx0 y = m w (uv_el (pv_uni l) Ux) y /\ p_eval NC wx1 y = m w (uv_el (pv_uni r) Ux) y /\
     p_eval NC wx0 (uv_el (pv_uni l) Uy) = p_eval NC (ce_xy pl) w /\ p_eval NC wx1 (uv_el (pv_uni r) Uy) = p_eval NC (ce_xy pr) w) /\
    forall v, v = acc_view l pl il y \/ v = acc_view r pr ir y -> many NC (fun z => Forall (claim_holds n z (sy y)) (own_claims v ++ bond_claims f0 [v])).
  Proof.
    intros H6 W0 W1 H. destruct (many_ex F NC _ (nc0 lg) H) as (z & wy & ie & Wy & Lie & HZ).
    destruct (at_z w y z wx0 wx1 wy ie W0 W1 Wy Lie HZ) as (Op & Rg & _). split; [exact Op|]. split; [exact Rg|]. intros v Hv.
    assert (HC : many NC (fun z => Forall (claim_holds n z (sy y)) (flat_map own_claims (vs y) ++ bond_claims f0 (vs y)))).
    { revert H. apply many_impl. intros z' (wy' & ie' & Wy' & Lie' & HZ'). exact (proj2 (proj2 (at_z w y z' wx0 wx1 wy' ie' W0 W1 Wy' Lie' HZ'))). }
    assert (HB : forall z, Forall (claim_holds n z (sy y)) (bond_claims f0 [v])).
    { apply (bonds_split y (acc_view l pl il y) (acc_view r pr ir y) H6); [|exact Hv]. revert HC. apply many_impl. intros z' X. apply Forall_app in X. exact (proj2 X). }
    revert HC. apply many_impl. intros z' X. apply Forall_app in X. destruct X as [X _]. cbn [flat_map] in X. rewrite app_nil_r in X. apply Forall_app in X.
    apply Forall_app. split; [|apply HB]. destruct Hv as [->| ->]; apply X.
  Qed.

  (** the whole tree *)
  Theorem acc_sound : 6 <= NC -> forked lg log2 M N cb nbits gen zeta om rv l r pl pr ->
    child_true lg rv l pl il /\ child_true lg rv r pr ir.
  Proof.
    intros H6 H.
    assert (HW : many NC (fun w => exists wx0 wx1, wf 0 NC wx0 /\ wf 0 NC wx1 /\
      many NC (fun y => many NC (fun z => exists wy ie, wf 0 NC wy /\ length ie = N /\ lv_mu w y z wx0 wx1 wy ie)))) by exact H. clear H.
    assert (HR : many NC (fun w => p_eval NC (ce_xy pl) w = m w (uv_el (pv_uni l) Ux) (uv_el (pv_uni l) Uy) /\ p_eval NC (ce_xy pr) w = m w (uv_el (pv_uni r) Ux) (uv_el (pv_uni r) Uy))).
    { revert HW. apply many_impl. intros w (wx0 & wx1 & W0 & W1 & HY).
      assert (E0 : forall t, p_eval NC wx0 t = m w (uv_el (pv_uni l) Ux) t).
      { apply (many_eval F NC wx0 (fun t => m w (uv_el (pv_uni l) Ux) t) W0 (rvo_y _ _ _ _ RV _ _)). revert HY. apply many_impl. intros y HZ.
        exact (proj1 (proj1 (proj2 (at_y w y wx0 wx1 H6 W0 W1 HZ)))). }
      assert (E1 : forall t, p_eval NC wx1 t = m w (uv_el (pv_uni r) Ux) t).
      { apply (many_eval F NC wx1 (fun t => m w (uv_el (pv_uni r) Ux) t) W1 (rvo_y _ _ _ _ RV _ _)). revert HY. apply many_impl. intros y HZ.
        exact (proj1 (proj2 (proj1 (proj2 (at_y w y wx0 wx1 H6 W0 W1 HZ))))). }
      destruct (many_ex F NC _ (nc0 lg) HY) as (y & HZ). destruct (at_y w y wx0 wx1 H6 W0 W1 HZ) as (_ & (_ & _ & A & B) & _).
      rewrite <- A, <- B, E0, E1. auto. }
    destruct (many_ex F NC _ (nc0 lg) HW) as (w & wx0 & wx1 & W0 & W1 & HY).
    destruct (many_ex F NC _ (nc0 lg) HY) as (y & HZ). destruct (at_y w y wx0 wx1 H6 W0 W1 HZ) as ((Ol & Or) & _ & HC).
    pose proof (proj1 (Forall_forall _ _) Wl) as Vl. pose proof (proj1 (Forall_forall _ _) Wr) as Vr.
    assert (WL : wf 0 NC (ce_xy pl)) by (apply Vl; unfold ceval_write; apply in_or_app; right; cbn; auto).
    assert (WR : wf 0 NC (ce_xy pr)) by (apply Vr; unfold ceval_write; apply in_or_app; right; cbn; auto).
    split; constructor; auto.
    - destruct (many_ex F NC _ (nc0 lg) (HC _ (or_introl eq_refl))) as (z & X). inversion X as [|? ? X1 _]; subst. exact X1.
    - apply (many_eval F NC _ (fun t => m t _ _) WL (rvo_w _ _ _ _ RV _ _)). revert HR. apply many_impl. intros t [X _]. exact X.
    - revert HY. apply many_impl. intros y' HZ'. exact (proj2 (proj2 (at_y w y' wx0 wx1 H6 W0 W1 HZ')) _ (or_introl eq_refl)).
    - destruct (many_ex F NC _ (nc0 lg) (HC _ (or_intror eq_refl))) as (z & X). inversion X as [|? ? X1 _]; subst. exact X1.
    - apply (many_eval F NC _ (fun t => m t _ _) WR (rvo_w _ _ _ _ RV _ _)). revert HR. apply many_impl. intros t [_ X]. exact X.
    - revert HY. apply many_impl. intros y' HZ'. exact (proj2 (proj2 (at_y w y' wx0 wx1 H6 W0 W1 HZ')) _ (or_intror eq_refl)).
  Qed.
End Acc2.
