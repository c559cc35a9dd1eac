(** Forked runs of a step: an honest prover answers every challenge. *)
From Coq Require Import List Arith NArith Bool Lia Ring Field Permutation.
From Verif Require Import FieldDef ModDef ArithModel SparseModel SparseSpec SparseProofs SparseProofs2 FoldModel FoldSpec FoldProofs FoldProofs2 FoldProofs3 TModel TProofs ClaimModel
  PcdModel PcdSpec PcdProofs PcdProofs2 Props_Fold Props_Pcd RecModel RecSpec QvModel QvProofs QvProofs2 Props_Rec Props_Qv Props_Qv2 VerifySpec AccSpec AccProofs AccProofs2.
Import ListNotations.
Open Scope f_scope.
Local Open Scope nat_scope.

Section Many.
  Variable F : Field.
  Lemma many_all (k : nat) (P : F -> Prop) : many k (fun _ : F => True) -> (forall a, P a) -> many k P.
  Proof. intros (l & A & B & _) H. exists l. auto. Qed.
  Lemma many_drop (k : nat) (bad : list F) (P : F -> Prop) : many (k + length bad) (fun _ : F => True) -> (forall a, ~ In a bad -> P a) -> many k P.
  Proof.
    intros (l & Nd & L & _) H. set (g := fun a : F => negb (existsb (feqb a) bad)).
    assert (G : forall a, g a = true <-> ~ In a bad).
    { intros a. unfold g. rewrite negb_true_iff. split.
      - intros E I. assert (X : existsb (feqb a) bad = true) by (apply existsb_exists; exists a; split; [exact I|now apply feqb_true]). congruence.
      - intros N. destruct (existsb (feqb a) bad) eqn:E; [|reflexivity]. apply existsb_exists in E. destruct E as (b & Ib & E). apply feqb_true in E. subst. contradiction. }
    exists (filter g l). split; [now apply NoDup_filter|]. split.
    - assert (X : length l <= length (filter g l ++ bad)).
      { apply NoDup_incl_length; [exact Nd|]. intros a Ia. apply in_or_app. destruct (g a) eqn:E; [left; now apply filter_In|right].
        unfold g in E. apply negb_false_iff, existsb_exists in E. destruct E as (b & Ib & E). apply feqb_true in E. now subst. }
      rewrite app_length in X. lia.
    - intros a Ia. apply filter_In in Ia. apply H, G, Ia.
  Qed.
End Many.

(** the polynomial with given coefficients *)
Lemma dense_poly (F : Field) (NC : nat) (g : nat -> F) : 0 < NC -> (forall k, NC <= k -> g k = f0) ->
  exists p : poly F, wf 0 NC p /\ forall k, coeff_at p k = g k.
Proof.
  intros H0 Hg. exists [(0, map g (seq 0 NC))]. split.
  - cbn [wf]. rewrite map_length, seq_length. split; [lia|]. split; [|split; [lia|exact I]]. intros E. apply (f_equal (@length F)) in E. rewrite map_length, seq_length in E. cbn in E. lia.
  - intros k. cbn [coeff_at]. rewrite map_length, seq_length. cbn [Nat.leb andb]. destruct (Nat.ltb_spec k (0 + NC)) as [L|L].
    + rewrite Nat.sub_0_r. rewrite (nth_indep _ f0 (g 0)) by (rewrite map_length, seq_length; exact L). rewrite map_nth, seq_nth by exact L. reflexivity.
    + symmetry. apply Hg. lia.
Qed.

Section Acc3.
  Variables (F : Field) (lg log2 M N : nat) (cb : F) (nbits : nat) (gen zeta : F) (om : nat -> F) (rv : regview F).
  Add Field FFu22 : (f_theory F).
  Local Notation n := (2 ^ lg).
  Local Notation NC := (4 * 2 ^ lg).
  Variables (l r : pvals F) (pl pr : ceval (poly F)) (il ir : nat).
  Local Notation omega := (fun id => om (internal_index id)).
  Hypothesis Wl : Forall (wf 0 NC) (ceval_write pl).
  Hypothesis Wr : Forall (wf 0 NC) (ceval_write pr).
  Hypothesis RV : reg_view_ok NC om (fun i => i < 13 \/ i = il \/ i = ir) rv.
  Hypothesis Cl : pv_cid l = om il.
  Hypothesis Cr : pv_cid r = om ir.
  Hypothesis HM : 0 < M.
  Hypothesis HMN : 22 <= M * N.
  Hypothesis Dl : fpow (pv_cid l) (2 ^ log2) = f1.
  Hypothesis Dr : fpow (pv_cid r) (2 ^ log2) = f1.
  Hypothesis Pl : pts_on cb (pv_uni l).
  Hypothesis Pr : pts_on cb (pv_uni r).
  Hypothesis Ol : p_eval NC (ce_p pl) (uv_el (pv_uni l) Uu) = uv_el (pv_uni l) Uv.
  Hypothesis Or : p_eval NC (ce_p pr) (uv_el (pv_uni r) Uu) = uv_el (pv_uni r) Uv.
  Hypothesis Rl : forall t, p_eval NC (ce_xy pl) t = rv_m rv t (uv_el (pv_uni l) Ux) (uv_el (pv_uni l) Uy).
  Hypothesis Rr : forall t, p_eval NC (ce_xy pr) t = rv_m rv t (uv_el (pv_uni r) Ux) (uv_el (pv_uni r) Uy).
  (* the checks hold at all challenges *)
  Hypothesis Al : forall y z, Forall (claim_holds n z (rv_sy rv y)) (own_claims (acc_view l pl il y) ++ bond_claims f0 [acc_view l pl il y]).
  Hypothesis Ar : forall y z, Forall (claim_holds n z (rv_sy rv y)) (own_claims (acc_view r pr ir y) ++ bond_claims f0 [acc_view r pr ir y]).
  Hypothesis Big : many (NC + 80) (fun _ : F => True).
  Hypothesis HMs : M < NC + 80.
  Hypothesis HNs : N < NC + 80.
  Hypothesis Betas : many 37 (fun be : F => exists pb, is_beta false nbits gen zeta pb be /\ forall b, is_beta false nbits gen zeta pb b -> b = be).
  Local Notation sy := (rv_sy rv).
  Local Notation m := (rv_m rv).
  Local Notation vs y := [acc_view l pl il y; acc_view r pr ir y].
  Local Notation claims := (build_claims (source_of [child_view pl il; child_view pr ir])).
  Local Notation kyf y := (ky_values (two_ky f0 (uv_el (pv_uni l) Uc) (uv_el (pv_uni r) Uc) (child_k l y) (child_k r y))).
  Local Notation kys y := (map (kyf y) (seq 0 (N * M))).
  Local Notation claim_polys := (claim_polys F lg rv pl pr il ir).

  (** the bonds of both children together *)
  Lemma bonds_join y (a b : pview (poly F) nat F) : 6 <= NC ->
    (forall z, Forall (claim_holds n z (sy y)) (bond_claims f0 [a])) -> (forall z, Forall (claim_holds n z (sy y)) (bond_claims f0 [b])) ->
    forall z, Forall (claim_holds n z (sy y)) (bond_claims f0 [a; b]).
  Proof.
    intros H6 Ha Hb z. unfold bond_claims in *. apply Forall_forall. intros c Hc. apply in_map_iff in Hc. destruct Hc as (id & <- & Hid).
    unfold claim_holds. cbn [fst snd a_coeff b_coeff]. apply (bond_fold F lg _ (fun k => coeff_at (sy y (internal_index id)) (NC - 1 - k)) z).
    intros p Hp. apply in_flat_map in Hp. destruct Hp as (i & Hi & Hp).
    assert (X : forall v : pview (poly F) nat F, (forall z, Forall (claim_holds n z (sy y)) (map (fun id => (CBond id (flat_map (fun i => map (fun v => pv_rx v (Rx i)) [v]) (bonded id)), f0)) [PreambleStage; InnerErrorStage; OuterErrorStage; QueryStage; EvalStage; InnerErrorFinalStaged; OuterErrorFinalStaged; EvalFinalStaged])) ->
      fsum NC (fun k => coeff_at (pv_rx v (Rx i)) k * coeff_at (sy y (internal_index id)) (NC - 1 - k))%F = f0).
    { intros v Hv. apply (bond_each F lg M N HM HMN (flat_map (fun i => map (fun v => pv_rx v (Rx i)) [v]) (bonded id)) (fun k => coeff_at (sy y (internal_index id)) (NC - 1 - k))).
      - destruct id; cbn [bonded flat_map map app length]; lia.
      - apply many_all.
        + eapply many_le; [|exact Big]. lia.
        + intros z'. specialize (Hv z'). rewrite Forall_forall in Hv. apply (Hv (CBond id (flat_map (fun i => map (fun v => pv_rx v (Rx i)) [v]) (bonded id)), f0)).
          apply in_map_iff. exists id. split; [reflexivity|exact Hid].
      - apply in_flat_map. exists i. split; [exact Hi|]. now left. }
    cbn [map In] in Hp. destruct Hp as [<-|[<-|[]]]; now apply X.
  Qed.
  Lemma zip_back y z B1 : claim_polys y z B1 -> Forall (claim_holds n z (sy y)) (flat_map own_claims (vs y) ++ bond_claims f0 (vs y)) ->
    forall k, k < 22 -> kyf y k = p_revdot NC (nth k (map fst B1) []) (nth k (map snd B1) []).
  Proof.
    intros CP H. pose proof (Permutation_sym (native_perm f0 (vs y))) as PM. pose proof (Permutation_Forall PM H) as HZ. clear H PM.
    change (kysource_of f0 (vs y)) with (two_ky f0 (uv_el (pv_uni l) Uc) (uv_el (pv_uni r) Uc) (child_k l y) (child_k r y)) in HZ.
    change (build_claims (source_of (vs y))) with claims in HZ. change 22 with (length claims).
    revert HZ. generalize (kyf y). intros g. unfold AccProofs2.claim_polys in CP. revert CP. generalize claims. intros cs CP. unfold zip_ky.
    assert (G : forall s, Forall (claim_holds n z (sy y)) (combine cs (map g (seq s (length cs)))) ->
      forall k, k < length cs -> g (s + k) = p_revdot NC (nth k (map fst B1) []) (nth k (map snd B1) [])).
    { induction CP as [|c [a b] cs B1 (Wa & Wb & Ca & Cb) _ IH]; intros s HK k Hk; cbn [length] in *; [lia|]. cbn [seq map combine] in HK. inversion HK as [|? ? H1 H2]; subst.
      destruct k as [|k]; cbn [map nth fst snd] in *.
      - rewrite Nat.add_0_r. unfold claim_holds in H1. cbn [fst snd] in H1. rewrite revdot_rdot by assumption. unfold rdot. rewrite <- H1. apply fsum_ext. intros j _. now rewrite Ca, Cb.
      - replace (s + S k) with (S s + k) by lia. apply IH; [exact H2|lia]. }
    intros HZ. exact (G 0 HZ).
  Qed.
  Lemma claims_all y z B1 : 6 <= NC -> claim_polys y z B1 ->
    forall k, k < M * N -> nth k (kys y) f0 = p_revdot NC (nth k (map fst B1) []) (nth k (map snd B1) []).
  Proof.
    intros H6 CP k Hk. rewrite (ky_nth F M N l r HM HMN) by exact Hk. destruct (Nat.lt_ge_cases k 22) as [L|L].
    - apply (zip_back y z B1 CP); [|exact L]. apply Forall_app. split.
      + cbn [flat_map]. rewrite app_nil_r. apply Forall_app. split; [exact (proj1 (proj1 (Forall_app _ _ _) (Al y z)))|exact (proj1 (proj1 (Forall_app _ _ _) (Ar y z)))].
      + apply (bonds_join y _ _ H6); intros z'; [exact (proj2 (proj1 (Forall_app _ _ _) (Al y z')))|exact (proj2 (proj1 (Forall_app _ _ _) (Ar y z')))].
    - destruct (claim_polys_wf F lg rv pl pr il ir y z B1 CP) as (L1 & _ & _).
      rewrite !(nth_overflow _ []) by (rewrite map_length; lia). rewrite revdot_rdot by exact I. unfold rdot. rewrite fsum_zero by (intros; cbn [coeff_at]; ring).
      unfold ky_values. apply nth_overflow. cbn. lia.
  Qed.

  Lemma points_len d : length (points_of (F := F) d) = 25.
  Proof. reflexivity. Qed.

  Theorem acc_complete : 6 <= NC -> forked lg log2 M N cb nbits gen zeta om rv l r pl pr.
  Proof.
    intros H6. assert (HN : 0 < N) by nia. pose proof (nc0 lg) as NC0.
    assert (MA : forall k (P : F -> Prop), k <= NC + 80 -> (forall a : F, P a) -> many k P) by (intros k P Hk HP; apply many_all; [eapply many_le; [exact Hk|exact Big]|exact HP]).
    assert (MZ : forall k (P : F -> Prop), k < NC + 80 -> (forall a : F, a <> f0 -> P a) -> many k P).
    { intros k P Hk HP. apply (many_drop F k [f0]); [eapply many_le; [|exact Big]; cbn [length]; lia|]. intros a Ha. apply HP. intros ->. apply Ha. now left. }
    apply MA; [lia|]. intros w. destruct (rvo_y _ _ _ _ RV w (uv_el (pv_uni l) Ux)) as (wx0 & W0 & V0). destruct (rvo_y _ _ _ _ RV w (uv_el (pv_uni r) Ux)) as (wx1 & W1 & V1).
    exists wx0, wx1. split; [exact W0|]. split; [exact W1|]. apply MA; [lia|]. intros y. apply MZ; [lia|]. intros z Hz.
    destruct (rvo_x _ _ _ _ RV w y) as (wy & Wy & Vy).
    destruct (claim_polys_ex F lg om rv pl pr il ir Wl Wr RV y z) as (B1 & CP). destruct (claim_polys_wf F lg rv pl pr il ir y z B1 CP) as (L1 & Wf1 & Wf2).
    pose proof (claims_all y z B1 H6 CP) as KY.
    assert (LL : length (map fst B1) = length (map snd B1)) by now rewrite !map_length.
    assert (LC : length (map fst B1) <= M * N) by (rewrite map_length; lia).
    pose proof (fun mu nu mu' nu' => C27_compose F NC M N (map fst B1) (map snd B1) (kys y) mu nu mu' nu' HM HN LL LC Wf1 Wf2) as FO.
    destruct (FO f1 f1 f1 f1 (F_1_neq_0 (f_theory F)) (F_1_neq_0 (f_theory F))) as (_ & _ & _ & _ & ie & _ & _ & _ & Eie & _ & _ & _ & Lie & _).
    exists wy, ie. split; [exact Wy|]. split; [exact Lie|]. apply MZ; [lia|]. intros mu Hmu. apply MA; [lia|]. intros nu.
    destruct (FO mu nu f1 f1 Hmu (F_1_neq_0 (f_theory F))) as (A1 & B1' & _ & _ & _ & oerr & EA1 & EB1 & _ & Eoe & _).
    set (oe := mk_ovals oerr (collapsed M N mu nu ie (kys y)) (child_k l y) (child_k r y) []). exists oe. split; [cbn [oe ov_collapsed]; unfold collapsed; now rewrite map_length, seq_length|].
    apply MZ; [lia|]. intros mu' Hmu'. apply MA; [lia|]. intros nu'.
    destruct (FO mu nu mu' nu' Hmu Hmu') as (A1_ & B1_ & A & B & ie_ & oerr_ & EA1_ & EB1_ & Eie_ & Eoe_ & EA & EB & _ & _ & _ & D).
    rewrite EA1 in EA1_. injection EA1_ as <-. rewrite EB1 in EB1_. injection EB1_ as <-. rewrite Eie in Eie_. injection Eie_ as <-. rewrite Eoe in Eoe_. injection Eoe_ as <-.
    destruct (two_layers F NC M N (map fst B1) (map snd B1) (finv mu) (mu * nu)%F (finv mu') (mu' * nu')%F HM LC ltac:(rewrite <- LL; exact LC) Wf1 Wf2)
      as (A1_ & B1_ & A_ & B_ & EA1_ & EB1_ & _ & _ & _ & _ & EA_ & EB_ & WA & WB & _ & _).
    rewrite EA1 in EA1_. injection EA1_ as <-. rewrite EB1 in EB1_. injection EB1_ as <-. rewrite EA in EA_. injection EA_ as <-. rewrite EB in EB_. injection EB_ as <-.
    exists A, B. split; [exact WA|]. split; [exact WB|].
    assert (EC : rdot NC A B = weigh N (finv mu') (mu' * nu')%F (entry N oerr (collapsed M N mu nu ie (kys y)))).
    { rewrite <- revdot_rdot by assumption. symmetry.
      assert (Z : forall a b : F, (a - b)%F = f0 -> a = b) by (intros a b E; replace a with ((a - b) + b)%F by ring; rewrite E; ring).
      apply Z. rewrite D. apply fsum_zero. intros g Hg. rewrite fsum_zero; [ring|]. intros i Hi. rewrite KY by nia. ring. }
    clear D. apply MZ; [lia|]. intros x Hx. destruct (rvo_w _ _ _ _ RV x y) as (xy & Wxy & Vxy).
    set (ps := mk_evalout pl pr wx0 wx1 wy A B xy). set (ld := cden F l). set (rd := cden F r).
    set (q := native_query NC ps ld rd w y z x omega).
    exists q, xy. split; [exact Wxy|]. split; [exact Vxy|]. apply MA; [lia|]. intros al.
    assert (Wp : Forall (wf 0 NC) (eval_write ps)) by (apply (eval_write_wf F lg pl pr Wl Wr); assumption).
    destruct (C38_f F NC ps ld rd w y z x al omega NC0 Wp) as (_ & _ & f & _ & Wf & Vf).
    exists f. split; [exact Wf|]. set (d := mk_denoms ld rd w x y (x * z)%F omega) in *.
    apply (many_drop F (NC + 55) (points_of d)); [rewrite points_len; eapply many_le; [|exact Big]; lia|]. intros u Hu. exists (native_eval NC ps u).
    revert Betas. apply many_impl. intros be (pb & Hb & Ub).
    destruct (dense_poly F NC (fun k => hfold 37 be (fun i => coeff_at (nth i (f :: eval_write ps) []) k)) NC0) as (p & Wpp & Cp).
    { intros k Hk. unfold hfold. apply fsum_zero. intros i Hi. rewrite (SparseProofs.coeff_high F (nth i (f :: eval_write ps) []) 0 NC k); [ring| |exact Hk].
      destruct i as [|i]; cbn [nth]; [exact Wf|]. rewrite Forall_forall in Wp. apply Wp, nth_In. change (length (eval_write ps)) with 36. lia. }
    set (U := mk_uvals (fun _ => (f0, f0)) (fun e => match e with Uw => w | Uy => y | Uz => z | Umu => mu | Unu => nu | Umu' => mu' | Unu' => nu'
      | Uc => rdot NC A B | Ux => x | Ualpha => al | Uu => u | Upre_beta => pb | Uv => p_eval NC p u end)).
    exists U. split; [reflexivity|]. split; [exact Ub|]. split; [exact Dl|]. split; [exact Dr|]. split; [reflexivity|]. split; [reflexivity|].
    split; [|split; [|split; [|split; [reflexivity|exists p; auto]]]].
    - split; [exact Hmu|]. cbn [U uv_el]. intros i Hi. cbn [oe ov_collapsed]. rewrite collapsed_nth by lia. unfold weigh.
      apply fsum_ext. intros a Ha. apply fsum_ext. intros b _. f_equal. unfold entry. destruct (a =? b); [|reflexivity].
      rewrite group_nth by exact Ha. rewrite (ky_nth F M N l r HM HMN) by nia.
      rewrite (nth_indep _ f0 (ky_of l r oe 0)) by (rewrite map_length, seq_length; exact Ha). rewrite map_nth, seq_nth by exact Ha. reflexivity.
    - split; [exact Hmu'|]. right. exact EC.
    - assert (AB : axbx n M N q U = (p_eval NC A (x * z)%F, p_eval NC B x)).
      { apply (C38_ab_coeffs F lg M N (fun i => Some (sy y i)) (sy y) ps ld rd il ir omega U B1 A1 B1'); auto.
        - intros i Hi. split; [reflexivity|]. apply (rvo_slot _ _ _ _ RV). auto.
        - intros id. cbn [ps eo_xy U uv_el]. rewrite Vxy. symmetry. apply (rvo_slot _ _ _ _ RV). left. apply internal_lt.
        - cbn [ps eo_xy U uv_el]. change (cd_cid ld) with (pv_cid l). rewrite Vxy, Cl. symmetry. apply (rvo_slot _ _ _ _ RV). auto.
        - cbn [ps eo_xy U uv_el]. change (cd_cid rd) with (pv_cid r). rewrite Vxy, Cr. symmetry. apply (rvo_slot _ _ _ _ RV). auto. }
      assert (QS := honest_queries F NC ps ld rd w y z x u omega (uv_el (pv_uni l) Uv) (uv_el (pv_uni r) Uv) (fst (axbx n M N q U)) (snd (axbx n M N q U))).
      do 2 (split; [assumption|]). split; [exact Hx|]. split; [exact Hz|]. split; [exact Hmu|]. split; [exact Hmu'|]. split; [exact Hu|].
      exists be. split; [exact Hb|]. cbv zeta. change (open_points omega l r U) with d. change (uv_el U Ualpha) with al. change (uv_el U Uu) with u. change (uv_el U Uv) with (p_eval NC p u).
      fold q d in QS. rewrite QS.
      + rewrite <- (Vf u Hu). rewrite (eval_comb F NC 37 be u (fun i => nth i (f :: eval_write ps) []) p Wpp).
        * change (length (p_eval NC f u :: eval_write (native_eval NC ps u))) with 37. unfold hfold. apply fsum_ext. intros i Hi. f_equal.
          change (p_eval NC f u :: eval_write (native_eval NC ps u)) with (map (fun g => p_eval NC g u) (f :: eval_write ps)).
          rewrite <- (map_nth (fun g => p_eval NC g u)). apply nth_indep. rewrite map_length. exact Hi.
        * intros [|i] Hi; cbn [nth]; [exact Wf|]. rewrite Forall_forall in Wp. apply Wp, nth_In. change (length (eval_write ps)) with 36. lia.
        * exact Cp.
      + cbn [ps eo_wx0 eo_left]. rewrite V0. symmetry. apply Rl.
      + cbn [ps eo_wx1 eo_right]. rewrite V1. symmetry. apply Rr.
      + cbn [ps eo_wy eo_wx0]. now rewrite Vy, V0.
      + cbn [ps eo_wy eo_wx1]. now rewrite Vy, V1.
      + cbn [ps eo_wy eo_xy]. now rewrite Vy, Vxy.
      + symmetry. exact Ol.
      + symmetry. exact Or.
      + now rewrite AB.
      + now rewrite AB.
  Qed.
End Acc3.
