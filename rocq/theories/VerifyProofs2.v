(** Registry slots, and claims against keyed wiring polynomials. *)
From Coq Require Import List Arith NArith Bool Lia Ring Field.
From Verif Require Import FieldDef ModDef ArithModel ArithSpec ArithProofs FFTModel FFTProofs SparseModel SparseSpec SparseProofs SparseProofs2 TModel TProofs
  FoldModel FoldSpec ClaimModel CircModel CircSpec SyModel TraceModel CircProofs CircProofs2 SyProofs SyProofs2 SatProofs StageModel StageSpec StageProofs RegModel RegSpec RegProofs RegProofs2
  PcdModel PcdSpec PcdProofs2 CompileModel CompileSpec CompileSpec2 CompileProofs2.
Import ListNotations.
Local Open Scope nat_scope.

(** [m] is [q] plus kappa at degree 4n-1 *)
Definition keyed {F : Field} (n : nat) (kappa : F) (m q : poly F) : Prop :=
  forall e, coeff_at m e = fadd (coeff_at q e) (if e =? 4 * n - 1 then kappa else f0).

Section Slots.
  Variable F : Field.
  Add Field FFvs : (f_theory F).
  Open Scope f_scope.
  Variables (T : TwoAdic F) (lg : nat) (repr : F -> N).
  Variables (hash : list N -> list N) (to_bytes : F -> list N) (from_uniform : list N -> F) (f_of_u64 : N -> F).
  Hypothesis S32 : (ta_S T <= 32)%nat.
  Variables (b : builder F) (r : registry F).
  Hypothesis Hf : finalize F T lg repr hash to_bytes from_uniform f_of_u64 b = Some r.
  Let k := log2_circuits F b.
  Hypothesis inj : forall w w' : F, w ^ (2 ^ k) = 1 -> w' ^ (2 ^ k) = 1 -> omega_key F repr w = omega_key F repr w' -> w = w'.
  Local Notation n := (2 ^ lg)%nat.

  Lemma slot_y i y q : (i < 2 ^ k)%nat ->
    match nth_error (reg_order b) i with Some c => ob_sy F c y (floor_plan (ob_segs F c)) = Some q | None => q = [] end -> wf 0 (4 * n) q ->
    exists m, circuit_y F T lg repr r (N.of_nat i) y = Some m /\ wf 0 (4 * n) m /\ keyed n (rg_key F r * y ^ (4 * n - 1)) m q.
  Proof.
    intros Hi Hq Wq. destruct (finalize_inv F T repr lg hash to_bytes from_uniform f_of_u64 b r Hf) as (NB & d & Ed & Er & _).
    destruct (domain_new_inv F T _ d Ed) as [K D]. fold k in K, D. pose proof (log2_fits F b) as Fi. fold k in Fi.
    assert (n1 : (1 <= n)%nat) by (pose proof (Nat.pow_nonzero 2 lg); lia).
    unfold circuit_y, reg_wy, reg_at.
    assert (Rd : rg_domain F r = d) by (rewrite Er; reflexivity). rewrite Rd, (do_n _ _ _ _ D).
    assert (C : d_contains d (omega_j T (N.of_nat i)) = true).
    { apply (omega_j_in F T S32 k d i D K); [|exact Hi]. eapply Nat.lt_le_trans; [exact Hi|]. apply Nat.pow_le_mono_r; lia. }
    destruct (ell_ok F T k d (omega_j T (N.of_nat i)) (2 ^ k) D (Nat.le_refl _)) as [E1 _]. rewrite E1 by exact C. cbn [obind].
    assert (Rl : rg_lookup F r = lookup_go F repr d k 0 (length (reg_order b)) []) by (rewrite Er; reflexivity). rewrite Rl.
    rewrite (lookup_ok F T repr S32 k d D K inj (length (reg_order b)) 0 i) by lia.
    assert (W0 : wf 0 (4 * n) (@p_new F)) by exact I.
    assert (U : exists u, w_cached F (poly F) (fun c p coeff acc => obind (ob_sy F c y p) (fun tmp => p_add (rk_nc lg) acc (p_scale coeff tmp))) r
        (match (if (0 <=? i)%nat && (i <? 0 + length (reg_order b))%nat then Some i else None) with Some i => LDirect F i | None => LEmpty F end) p_new = Some u
      /\ wf 0 (4 * n) u /\ forall e, coeff_at u e = coeff_at q e).
    { destruct (nth_error (reg_order b) i) as [c|] eqn:Ec.
      - assert (Li : (i < length (reg_order b))%nat) by (apply nth_error_Some; congruence).
        destruct (Nat.leb_spec 0 i), (Nat.ltb_spec i (0 + length (reg_order b))); try lia. cbn [andb w_cached]. unfold add_nth.
        assert (Rc : rg_circuits F r = reg_order b) by (rewrite Er; reflexivity).
        assert (Rp : rg_plans F r = map (fun c => floor_plan (ob_segs F c)) (reg_order b)) by (rewrite Er; reflexivity).
        rewrite Rc, Rp, Ec, (map_nth_error _ _ _ Ec), Hq. cbn [obind].
        destruct (SparseProofs.scale_ok F 0 (4 * n) 1 q Wq) as [Ws Cs]. destruct (SparseProofs.add_ok F (4 * n) _ _ W0 Ws) as (u & Eu & Wu & Cu).
        exists u. split; [exact Eu|]. split; [exact Wu|]. intros e. rewrite Cu, Cs. cbn [coeff_at p_new]. ring.
      - apply nth_error_None in Ec. destruct (Nat.leb_spec 0 i), (Nat.ltb_spec i (0 + length (reg_order b))); try lia. cbn [andb w_cached].
        exists p_new. split; [reflexivity|]. split; [exact W0|]. intros e. rewrite Hq. reflexivity. }
    destruct U as (u & Eu & Wu & Cu).
    assert (A : forall cache, w_cached F (poly F) (fun c p coeff acc => obind (ob_sy F c y p) (fun tmp => p_add (rk_nc lg) acc (p_scale coeff tmp))) r cache p_new = Some u ->
      exists m, at_y F lg r cache y = Some m /\ wf 0 (4 * n) m /\ keyed n (rg_key F r * y ^ (4 * n - 1)) m q).
    { intros cache E. unfold at_y. rewrite E. cbn [obind]. destruct (feqb y 0) eqn:Ey.
      - apply feqb_true in Ey. subst y. exists u. split; [reflexivity|]. split; [exact Wu|]. intros e. rewrite Cu, fpow_zero by lia.
        destruct (e =? 4 * n - 1)%nat; ring.
      - change (rk_nc lg) with (4 * n)%nat. change (rk_n lg) with n.
        destruct (wiring_build_ok F n [] [] [rg_key F r * y ^ (4 * n - 1)] []) as (kq & Ek & Wk & Ck); try (cbn; lia).
        rewrite Ek. cbn [obind]. destruct (SparseProofs.add_ok F (4 * n) _ _ Wu Wk) as (m & Em & Wm & Cm). exists m. split; [exact Em|]. split; [exact Wm|].
        intros e. rewrite Cm, Cu, Ck. f_equal. generalize (rg_key F r * y ^ (4 * n - 1)). intros kap. clear -n1. set (n' := n) in *. clearbody n'. unfold trace_coeff.
        destruct (Nat.ltb_spec e n'); [destruct (Nat.eqb_spec e (4 * n' - 1)); [lia|destruct e; reflexivity]|].
        destruct (Nat.ltb_spec e (2 * n')); [destruct (Nat.eqb_spec e (4 * n' - 1)); [lia|]; destruct (2 * n' - 1 - e)%nat; reflexivity|].
        destruct (Nat.ltb_spec e (3 * n')); [destruct (Nat.eqb_spec e (4 * n' - 1)); [lia|]; destruct (e - 2 * n')%nat; reflexivity|].
        destruct (Nat.ltb_spec e (4 * n')).
        + destruct (Nat.eqb_spec e (4 * n' - 1)) as [->|].
          * now rewrite Nat.sub_diag.
          * replace (4 * n' - 1 - e)%nat with (S (4 * n' - 2 - e)) by lia. destruct (4 * n' - 2 - e)%nat; reflexivity.
        + destruct (Nat.eqb_spec e (4 * n' - 1)); [lia|reflexivity]. }
    destruct (if (0 <=? i)%nat && (i <? 0 + length (reg_order b))%nat then Some i else None) as [j|]; cbn [obind]; apply A; exact Eu.
  Qed.
End Slots.

(** ** circuit claims *)
Section KeyedClaims.
  Variable F : Field.
  Add Field FFvkc : (f_theory F).
  Open Scope f_scope.
  Variable n : nat.
  Local Notation NC := (4 * n)%nat.
  (** revdot of r with r(zX) + s(X) + t(X, z) *)
  Definition circ_sum (z : F) (r s : poly F) : F :=
    fsum NC (fun k => coeff_at r k * (coeff_at r (NC - 1 - k) * z ^ (NC - 1 - k) + coeff_at s (NC - 1 - k) + t_coeff n z (NC - 1 - k))).
  Definition mask_sum (r s : poly F) : F := fsum NC (fun k => coeff_at r k * coeff_at s (NC - 1 - k)).

  Lemma top_term (f : nat -> F) kappa : (0 < n)%nat -> fsum NC (fun k => f k * (if (NC - 1 - k =? NC - 1)%nat then kappa else 0)) = f 0%nat * kappa.
  Proof.
    intros Hn. rewrite (fsum_single F NC 0); [|lia|].
    - rewrite Nat.sub_0_r, Nat.eqb_refl. reflexivity.
    - intros i Hi Hne. destruct (Nat.eqb_spec (NC - 1 - i) (NC - 1)); [lia|]. ring.
  Qed.
  Lemma circ_keyed z r m q kappa : (0 < n)%nat -> keyed n kappa m q -> circ_sum z r m = circ_sum z r q + coeff_at r 0 * kappa.
  Proof.
    intros Hn K. rewrite <- (top_term (coeff_at r) kappa Hn). unfold circ_sum. rewrite <- fsum_add. apply fsum_ext. intros k _. rewrite K. ring.
  Qed.
  Lemma mask_keyed r m q kappa : (0 < n)%nat -> keyed n kappa m q -> mask_sum r m = mask_sum r q + coeff_at r 0 * kappa.
  Proof.
    intros Hn K. rewrite <- (top_term (coeff_at r) kappa Hn). unfold mask_sum. rewrite <- fsum_add. apply fsum_ext. intros k _. rewrite K. ring.
  Qed.
  Lemma circ_passes body outs outputs (r q : poly F) y z : wf 0 NC r -> wf 0 NC q ->
    sy_eval n NC body outs y (floor_plan (sizes (orchestrate body outs))) = Some q ->
    (passes F n r body outs outputs y z <-> circ_sum z r q = ky_eval outputs y).
  Proof.
    intros W Wq E. destruct (circuit_b_ok F n z r q W Wq) as (bp & Eb & Wb & Cb).
    assert (V : p_revdot NC r bp = circ_sum z r q).
    { rewrite revdot_ok by auto. unfold circ_sum. apply fsum_ext. intros k _. now rewrite Cb. }
    split.
    - intros (s & b' & E1 & E2 & E3). rewrite E in E1. injection E1 as <-. rewrite Eb in E2. injection E2 as <-. now rewrite <- V.
    - intros H. exists q, bp. rewrite V. auto.
  Qed.

  Lemma keyed_sound key body outs outputs (r : poly F) ys :
    let p := orchestrate body outs in
    (list_sum (map fst (sizes p)) <= n)%nat -> (list_sum (map snd (sizes p)) < NC)%nat -> owned p [] <> None ->
    wf 0 NC r -> length outputs = length outs -> NoDup ys -> (NC <= length ys)%nat ->
    (forall y, In y ys -> exists zs, NoDup zs /\ (NC <= length zs)%nat /\ forall z, In z zs -> exists q m,
       sy_eval n NC body outs y (floor_plan (sizes p)) = Some q /\ keyed n (key * y ^ (NC - 1)) m q /\ circ_sum z r m = ky_eval outputs y) ->
    accepted n r body outs outputs ys /\ key * coeff_at r 0 = 0.
  Proof.
    intros p Hg Hc Ho W Hl Hnd Hys Hp. assert (Hn : (0 < n)%nat) by lia.
    destruct (poly_cols F n r W) as (r' & E' & W' & C'). set (a := col F n r KA) in *. set (b := col F n r KB) in *. set (c := col F n r KC) in *. set (d := col F n r KD) in *.
    assert (La : length a = n) by apply col_length. assert (Lb : length b = n) by apply col_length.
    assert (Lc : length c = n) by apply col_length. assert (Ld : length d = n) by apply col_length.
    set (Y := y_coeffs (placed (sizes p) (columns a b c d)) p).
    assert (V : forall y z q, sy_eval n NC body outs y (floor_plan (sizes p)) = Some q -> wf 0 NC q /\ circ_sum z r q = gate_poly F n a b c d z + peval Y y).
    { intros y z q Eq. destruct (sy_ok F n body outs y Hg Hc Ho) as (q' & Eq' & Wq & _). fold p in Eq'. rewrite Eq in Eq'. injection Eq' as <-. split; [exact Wq|].
      destruct (SatProofs.claim_ok F n body outs y z a b c d r' q Hg Hc Ho ltac:(lia) ltac:(lia) ltac:(lia) ltac:(lia) E' Eq) as (bp & Eb & Wb & Vb). fold p Y in Vb.
      destruct (circuit_b_ok F n z r' q W' Wq) as (bp' & Eb' & _ & Cb). rewrite Eb in Eb'. injection Eb' as <-.
      rewrite <- Vb, revdot_ok by auto. unfold circ_sum. apply fsum_ext. intros k _. now rewrite Cb, !C'. }
    assert (K : forall y, In y ys -> peval Y y - ky_eval outputs y + key * coeff_at r 0 * y ^ (NC - 1) = 0).
    { intros y Hy. destruct (Hp y Hy) as (zs & Hz & Lz & Pz).
      destruct (gate_poly_const F n a b c d zs (ky_eval outputs y - peval Y y - key * coeff_at r 0 * y ^ (NC - 1)) Hz Lz Hn) as [_ E].
      - intros z Hzin. destruct (Pz z Hzin) as (q & m & Eq & Km & S). destruct (V y z q Eq) as [_ Vz].
        rewrite (circ_keyed z r m q _ Hn Km), Vz in S. rewrite <- S. ring.
      - transitivity (- (ky_eval outputs y - peval Y y - key * coeff_at r 0 * y ^ (NC - 1))); [ring|]. rewrite E. ring. }
    set (D := fun i => nth i Y 0 - nth i (1 :: rev outputs) 0 + (if (i =? NC - 1)%nat then key * coeff_at r 0 else 0)).
    assert (LY : (length Y < NC)%nat) by (unfold Y; now rewrite y_coeffs_length).
    assert (LO : (length (f1 :: rev outputs) < NC)%nat).
    { cbn [length]. rewrite rev_length, Hl. assert (X := outs_lt_cons F body outs). fold p in X. lia. }
    assert (Z : forall i, (i < NC)%nat -> D i = 0).
    { apply (coeffs_zero F NC D ys Hnd Hys). intros y Hy. rewrite <- (K y Hy), ky_ok.
      rewrite (peval_nth_ge F Y NC y), (peval_nth_ge F (1 :: rev outputs) NC y) by lia.
      assert (TT : fsum NC (fun i => (if (i =? NC - 1)%nat then key * coeff_at r 0 else 0) * y ^ i) = key * coeff_at r 0 * y ^ (NC - 1)).
      { rewrite (fsum_single F NC (NC - 1)); [now rewrite Nat.eqb_refl|lia|]. intros i _ Hne. apply Nat.eqb_neq in Hne. rewrite Hne. ring. }
      rewrite <- TT, <- fsum_sub, <- fsum_add. apply fsum_ext. intros i _. unfold D. ring. }
    assert (Hk : key * coeff_at r 0 = 0).
    { specialize (Z (NC - 1)%nat ltac:(lia)). unfold D in Z. rewrite Nat.eqb_refl, (nth_overflow Y), (nth_overflow (1 :: rev outputs)) in Z by lia.
      rewrite <- Z. ring. }
    split; [|exact Hk]. intros y Hy. destruct (Hp y Hy) as (zs & Hz & Lz & Pz). exists zs. split; [exact Hz|]. split; [exact Lz|].
    intros z Hzin. destruct (Pz z Hzin) as (q & m & Eq & Km & S). destruct (V y z q Eq) as [Wq _].
    apply (circ_passes body outs outputs r q y z W Wq Eq). rewrite (circ_keyed z r m q _ Hn Km) in S. rewrite <- S.
    replace (coeff_at r 0 * (key * y ^ (NC - 1))) with (key * coeff_at r 0 * y ^ (NC - 1)) by ring. rewrite Hk. ring.
  Qed.
  Lemma keyed_complete key body outs outputs (r q m : poly F) y z : (0 < n)%nat -> wf 0 NC r -> wf 0 NC q ->
    sy_eval n NC body outs y (floor_plan (sizes (orchestrate body outs))) = Some q -> keyed n (key * y ^ (NC - 1)) m q -> key * coeff_at r 0 = 0 ->
    passes F n r body outs outputs y z -> circ_sum z r m = ky_eval outputs y.
  Proof.
    intros Hn W Wq E Km Hk P. apply (circ_passes body outs outputs r q y z W Wq E) in P. rewrite (circ_keyed z r m q _ Hn Km), P.
    replace (coeff_at r 0 * (key * y ^ (NC - 1))) with (key * coeff_at r 0 * y ^ (NC - 1)) by ring. rewrite Hk. ring.
  Qed.

  (** ** masks *)
  (** the polynomials of one bonding claim, separated by z *)
  Lemma bond_split (rs : list (poly F)) m zs : NoDup zs -> (length rs <= length zs)%nat ->
    (forall z, In z zs -> fsum NC (fun k => hfold (length rs) z (fun i => coeff_at (nth i rs []) k) * coeff_at m (NC - 1 - k)) = 0) ->
    forall i, (i < length rs)%nat -> mask_sum (nth i rs []) m = 0.
  Proof.
    intros Hnd Hl H i Hi. set (L := length rs) in *.
    assert (Z : forall j, (j < L)%nat -> mask_sum (nth (L - 1 - j) rs []) m = 0).
    { apply (coeffs_zero F L (fun j => mask_sum (nth (L - 1 - j) rs []) m) zs Hnd Hl). intros z Hz. rewrite <- (H z Hz).
      unfold hfold, mask_sum. rewrite (fsum_ext F NC _ (fun k => fsum L (fun i => z ^ (L - 1 - i) * coeff_at (nth i rs []) k * coeff_at m (NC - 1 - k)))).
      2:{ intros k _. now rewrite <- fsum_scale_r. }
      rewrite fsum_swap. rewrite <- (fsum_rev F L). apply fsum_ext. intros j Hj.
      replace (L - 1 - (L - 1 - j))%nat with j by lia. rewrite <- fsum_scale_r. apply fsum_ext. intros k _. ring. }
    specialize (Z (L - 1 - i)%nat ltac:(lia)). cbv beta in Z. replace (L - 1 - (L - 1 - i))%nat with i in Z by lia. exact Z.
  Qed.
  Lemma mask_sound key skip num (r : poly F) ys : (1 <= skip)%nat -> (skip + num <= n)%nat -> wf 0 NC r -> NoDup ys -> (NC <= length ys)%nat ->
    (forall y, In y ys -> exists q m, mask_project n (skip, num) y = Some q /\ keyed n (key * y ^ (NC - 1)) m q /\ mask_sum r m = 0) ->
    (forall y, unmasked n (Some (skip, num)) r y) /\ key * coeff_at r 0 = 0.
  Proof.
    intros Hs Hf W Hnd Hys H. assert (Hn : (0 < n)%nat) by lia.
    set (D := fun k => (if active skip num (gate_of n k) then 0 else coeff_at r (NC - 1 - k)) + (if (k =? NC - 1)%nat then key * coeff_at r 0 else 0)).
    assert (Z : forall k, (k < NC)%nat -> D k = 0).
    { apply (coeffs_zero F NC D ys Hnd Hys). intros y Hy. destruct (H y Hy) as (q & m & Eq & Km & S).
      destruct (mask_revdot F n skip num Hs Hf r y W) as (q' & Eq' & V). rewrite Eq in Eq'. injection Eq' as <-.
      destruct (project_ok F n skip num Hs Hf y) as (q' & Eq' & Wq & _). rewrite Eq in Eq'. injection Eq' as <-.
      rewrite revdot_ok in V by auto. fold (mask_sum r q) in V. rewrite (mask_keyed r m q _ Hn Km), V in S. rewrite <- S.
      assert (TT : fsum NC (fun i => (if (i =? NC - 1)%nat then key * coeff_at r 0 else 0) * y ^ i) = coeff_at r 0 * (key * y ^ (NC - 1))).
      { rewrite (fsum_single F NC (NC - 1)); [rewrite Nat.eqb_refl; ring|lia|]. intros i _ Hne. apply Nat.eqb_neq in Hne. rewrite Hne. ring. }
      rewrite <- TT, <- fsum_add. apply fsum_ext. intros i _. unfold D. ring. }
    assert (A0 : active skip num (gate_of n (NC - 1)) = true).
    { unfold gate_of. repeat match goal with |- context [?x <? ?y] => destruct (Nat.ltb_spec x y); try lia end. rewrite Nat.sub_diag. reflexivity. }
    assert (Hk : key * coeff_at r 0 = 0).
    { specialize (Z (NC - 1)%nat ltac:(lia)). unfold D in Z. rewrite A0, Nat.eqb_refl in Z. rewrite <- Z. ring. }
    split; [|exact Hk]. intros y. destruct (mask_revdot F n skip num Hs Hf r y W) as (q & Eq & V). exists (skip, num), q. split; [reflexivity|]. split; [exact Eq|].
    rewrite V. apply fsum_zero. intros k Hk'. specialize (Z k Hk'). unfold D in Z. rewrite Hk in Z.
    transitivity (((if active skip num (gate_of n k) then 0 else coeff_at r (NC - 1 - k)) + (if (k =? NC - 1)%nat then 0 else 0)) * y ^ k); [|rewrite Z; ring].
    destruct (k =? NC - 1)%nat; ring.
  Qed.
  Lemma mask_complete key mask (r q m : poly F) y : (0 < n)%nat -> wf 0 NC r -> wf 0 NC q -> mask_project n mask y = Some q -> keyed n (key * y ^ (NC - 1)) m q ->
    key * coeff_at r 0 = 0 -> unmasked n (Some mask) r y -> mask_sum r m = 0.
  Proof.
    intros Hn W Wq Eq Km Hk (m0 & s & Em & Es & S). injection Em as <-. rewrite Eq in Es. injection Es as <-. rewrite revdot_ok in S by auto.
    rewrite (mask_keyed r m q _ Hn Km). unfold mask_sum. rewrite S.
    replace (coeff_at r 0 * (key * y ^ (NC - 1))) with (key * coeff_at r 0 * y ^ (NC - 1)) by ring. rewrite Hk. ring.
  Qed.
  Lemma bond_join (rs : list (poly F)) m z : (forall i, (i < length rs)%nat -> mask_sum (nth i rs []) m = 0) ->
    fsum NC (fun k => hfold (length rs) z (fun i => coeff_at (nth i rs []) k) * coeff_at m (NC - 1 - k)) = 0.
  Proof.
    intros H. set (L := length rs) in *. unfold hfold.
    rewrite (fsum_ext F NC _ (fun k => fsum L (fun i => z ^ (L - 1 - i) * coeff_at (nth i rs []) k * coeff_at m (NC - 1 - k)))) by (intros k _; now rewrite <- fsum_scale_r).
    rewrite fsum_swap. apply fsum_zero. intros i Hi.
    rewrite (fsum_ext F NC _ (fun k => z ^ (L - 1 - i) * (coeff_at (nth i rs []) k * coeff_at m (NC - 1 - k)))) by (intros; ring).
    rewrite fsum_scale. fold (mask_sum (nth i rs []) m). rewrite H by exact Hi. ring.
  Qed.
End KeyedClaims.
