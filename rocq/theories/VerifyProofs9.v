(** Honest polynomials meet the claims of the verifier. *)
From Coq Require Import List Arith NArith Bool Lia Ring Field.
From Verif Require Import FieldDef ModDef ArithModel ArithSpec ArithProofs FFTModel FFTProofs SparseModel SparseSpec SparseProofs SparseProofs2 TModel TProofs
  FoldModel FoldSpec ClaimModel CircModel CircSpec SyModel SProofs TraceModel CircProofs CircProofs2 SyProofs SyProofs2 SatProofs GadgetModel SpongeModel StageModel StageSpec StageProofs RegModel RegSpec RegProofs RegProofs2
  PcdModel PcdSpec PcdProofs2 RecModel RecSpec CompileModel CompileSpec CompileSpec2 CompileProofs2 RecStageModel RecStageSpec RecStageProofs Props_Step
  VerifyModel VerifySpec VerifyProofs VerifyProofs2 VerifyProofs3 VerifyProofs4 VerifyProofs5 VerifyProofs6 VerifyProofs7.
Import ListNotations.
Local Open Scope nat_scope.

Section Complete.
  Variable F : Field.
  Add Field FFvc9 : (f_theory F).
  Open Scope f_scope.
  Variables (T : TwoAdic F) (lg : nat) (repr : F -> N).
  Variables (hash : list N -> list N) (to_bytes : F -> list N) (from_uniform : list N -> F) (f_of_u64 : N -> F).
  Hypothesis S32 : (ta_S T <= 32)%nat.
  Variables (b : builder F) (r : registry F).
  Hypothesis Hf : finalize F T lg repr hash to_bytes from_uniform f_of_u64 b = Some r.
  Let k := log2_circuits F b.
  Hypothesis inj : forall w w' : F, w ^ (2 ^ k) = 1 -> w' ^ (2 ^ k) = 1 -> omega_key F repr w = omega_key F repr w' -> w = w'.
  Local Notation n := (2 ^ lg)%nat.
  Local Notation NC := (4 * 2 ^ lg)%nat.
  Local Notation key := (rg_key F r).
  Variables (x0 x1 x2 x3 yc onec hc : F).
  Variables (cb : F) (hs M N' : nat) (P : pparams F) (of_u : BinNums.N -> F) (tag : list BinNums.N) (nbits : nat) (gen : F) (fsqrt : F -> option F) (zeta : F) (log2 : nat).
  Local Notation nobj := (native_obj T x0 x1 x2 x3 yc onec hc lg cb hs M N' P of_u tag nbits gen fsqrt zeta log2).
  Hypothesis slots : forall id, exists o, nobj id = Some o /\ nth_error (reg_order b) (internal_index id) = Some o.
  Variables (Fs : Field) (H : FMod F) (p : proof F Fs H).
  Hypothesis Wp : forall c, wf 0 NC (native_rx p c).
  Hypothesis C0 : forall i, coeff_at (native_rx p (Rx i)) 0 = 0.
  Local Notation syr := (syr F T lg repr r).
  Let Hn : (0 < n)%nat. Proof. pose proof (Nat.pow_nonzero 2 lg); lia. Qed.

  Lemma int_complete id stages (c : staged F) outputs rf q rs y z : generic_staged c -> nobj id = multi_obj x0 x1 x2 x3 yc onec hc lg stages c ->
    (forall e, lsum (map (fun i => coeff_at (native_rx p (Rx i)) e) (parts id)) = coeff_at rf e + fsum (length rs) (fun i => coeff_at (nth i rs []) e)) ->
    multi_passes n stages c outputs rf q rs ->
    claim_holds n z (syr y) (CInt id (map (fun i => native_rx p (Rx i)) (parts id)), k_of outputs y).
  Proof.
    intros G E Cs (_ & _ & Wq & Cq & _ & bo & ou & S & Lo & Pa).
    destruct (multi_slot F T lg repr hash to_bytes from_uniform f_of_u64 S32 b r Hf inj x0 x1 x2 x3 yc onec hc cb hs M N' P of_u tag nbits gen fsqrt zeta log2 slots id stages c G E)
      as (body & outs & S' & _ & _ & Hy).
    rewrite S in S'. injection S' as <- <-. destruct (Hy y) as (s & Es & Ws & _ & _ & Km).
    assert (Z : key * coeff_at q 0 = 0).
    { rewrite Cq, <- Cs. replace (lsum _) with (0 : F); [ring|]. clear -C0. induction (parts id) as [|i l IH]; [reflexivity|].
      cbn [map lsum fold_right]. fold (lsum (map (fun i => coeff_at (native_rx p (Rx i)) 0) l)). rewrite <- IH, C0. ring. }
    pose proof (keyed_complete F n key bo ou outputs q s (syr y (internal_index id)) y z Hn Wq Ws Es Km Z (Pa y z)) as V.
    rewrite ky_ok in V. unfold claim_holds. cbn [fst snd a_coeff b_coeff]. unfold k_of. rewrite <- V. unfold circ_sum. apply fsum_ext. intros e _.
    rewrite !Cq, <- !Cs, !map_map. reflexivity.
  Qed.
  Lemma bond_complete id mk y z : nobj id = mask_obj lg mk -> (forall m, mk = Some m -> 1 <= fst m /\ fst m + snd m <= n)%nat ->
    (forall i, In i (bonded id) -> unmasked n mk (native_rx p (Rx i)) y) ->
    claim_holds n z (syr y) (CBond id (map (fun i => native_rx p (Rx i)) (bonded id)), 0).
  Proof.
    intros E Bm Hu.
    destruct (bond_slot F T lg repr hash to_bytes from_uniform f_of_u64 S32 b r Hf inj x0 x1 x2 x3 yc onec hc cb hs M N' P of_u tag nbits gen fsqrt zeta log2 slots id mk E Bm)
      as (m & -> & _ & _ & Hy). destruct (Hy y) as (q & Eq & Wq & _ & _ & Km).
    unfold claim_holds. cbn [fst snd a_coeff b_coeff].
    apply (bond_join F n (map (fun i => native_rx p (Rx i)) (bonded id)) (syr y (internal_index id)) z). intros j Hj. rewrite map_length in Hj.
    rewrite nth_indep with (d' := native_rx p (Rx RxPreamble)) by (rewrite map_length; exact Hj). rewrite (map_nth (fun i => native_rx p (Rx i))).
    set (i := nth j (bonded id) RxPreamble). apply (mask_complete F n key m (native_rx p (Rx i)) q (syr y (internal_index id)) y Hn (Wp _) Wq Eq Km).
    - rewrite C0. ring.
    - apply Hu. apply nth_In. exact Hj.
  Qed.
  Lemma app_complete o body outs outputs y z : nth_error (reg_order b) (N.to_nat (pf_circuit_id p)) = Some o ->
    prog_cobj x0 x1 x2 x3 yc onec hc lg body outs = Some o -> owned (orchestrate body outs) [] <> None ->
    passes F n (pf_application p) body outs outputs y z ->
    claim_holds n z (syr y) (CApp (N.to_nat (pf_circuit_id p)) (pf_application p), k_of outputs y).
  Proof.
    intros En Eo O Pa. destruct (circ_slot F T lg repr hash to_bytes from_uniform f_of_u64 S32 b r Hf inj x0 x1 x2 x3 yc onec hc _ o body outs En Eo O) as [_ Hy].
    destruct (Hy y) as (s & Es & Ws & _ & _ & Km).
    assert (Z : key * coeff_at (pf_application p) 0 = 0) by (pose proof (C0 RxApplication) as C; cbn [native_rx] in C; rewrite C; ring).
    pose proof (keyed_complete F n key body outs outputs (pf_application p) s (syr y (N.to_nat (pf_circuit_id p))) y z Hn (Wp (Rx RxApplication)) Ws Es Km Z Pa) as V.
    rewrite ky_ok in V. unfold claim_holds. cbn [fst snd a_coeff b_coeff]. unfold k_of. rewrite <- V. reflexivity.
  Qed.

  Variables (u : uvals F) (out : list F).
  Let us := u_write u.
  Hypothesis Lul : length (pf_left_header p) = hs.
  Hypothesis Lur : length (pf_right_header p) = hs.
  Let pre := pf_preamble p. Let oe := pf_outer_error p. Let ie := pf_inner_error p.
  Let sth := hashes_stages F hs N' P.
  Variables (o : cobj F) (body : prog F) (outs : list wref).
  Hypothesis En : nth_error (reg_order b) (N.to_nat (pf_circuit_id p)) = Some o.
  Hypothesis Eo : prog_cobj x0 x1 x2 x3 yc onec hc lg body outs = Some o.
  Hypothesis O : owned (orchestrate body outs) [] <> None.
  Hypothesis App : forall y z, passes F n (pf_application p) body outs (pf_left_header p ++ pf_right_header p ++ out) y z.
  Hypothesis Raw : fsum NC (fun e => coeff_at (pf_a p) e * coeff_at (pf_b p) (NC - 1 - e)) = pf_c p.
  Hypothesis Ppre : stage_passes n [pre_wires hs] 0 (pf_preamble p).
  Hypothesis Poe : stage_passes n [pre_wires hs; oe_wires N' (pp_T P)] 1 (pf_outer_error p).
  Hypothesis Pie : stage_passes n [pre_wires hs; oe_wires N' (pp_T P); ie_wires M N'] 2 (pf_inner_error p).
  Hypothesis Pq : stage_passes n [pre_wires hs; query_wires] 1 (pf_query p).
  Hypothesis Pe : stage_passes n [pre_wires hs; query_wires; eval_wires] 2 (pf_eval p).
  Variables (r1 r2 r3 r4 r5 : poly F).
  Hypothesis M1 : multi_passes n sth (s_hashes_1 F cb hs N' P of_u tag log2) (us ++ pf_left_header p ++ pf_right_header p ++ [0]) (pf_hashes_1 p) r1 [pre; oe].
  Hypothesis M2 : multi_passes n sth (s_hashes_2 F cb N' P) (us ++ [0]) (pf_hashes_2 p) r2 [[]; oe].
  Hypothesis M3 : multi_passes n (inner_stages F hs M N' P) (s_inner F cb hs M N' P) (us ++ [0]) (pf_inner_collapse p) r3 [pre; oe; ie].
  Hypothesis M4 : multi_passes n sth (s_outer F cb hs N' P) (us ++ [0]) (pf_outer_collapse p) r4 [pre; oe].
  Hypothesis M5 : multi_passes n (v_stages hs) (s_compute_v F cb hs M N' lg nbits gen fsqrt zeta (internal_omega T)) (us ++ [0]) (pf_compute_v p) r5 [pre; pf_query p; pf_eval p].

  Lemma native_complete y z : let v := view_of p (child_k (shown T p u out) y) in
    Forall (claim_holds n z (syr y)) (own_claims v ++ bond_claims 0 [v]).
  Proof.
    cbv zeta.
    assert (SM : forall pa v m, stage_mask n pa v = Some m -> (1 <= fst m /\ fst m + snd m <= n)%nat) by (intros pa v m; apply mask_new_inv).
    assert (SF : forall pa v m, stage_final_mask n pa v = Some m -> (1 <= fst m /\ fst m + snd m <= n)%nat) by (intros pa v m; apply mask_final_inv).
    assert (One : forall id mk x, bonded id = [x] -> nobj id = mask_obj lg mk -> (forall m, mk = Some m -> 1 <= fst m /\ fst m + snd m <= n)%nat ->
      unmasked n mk (native_rx p (Rx x)) y -> claim_holds n z (syr y) (CBond id [native_rx p (Rx x)], 0)).
    { intros id mk x Eb E Bm Hu. pose proof (bond_complete id mk y z E Bm) as X. rewrite Eb in X. apply X. intros i [<-|[]]. exact Hu. }
    pose proof M1 as (_ & _ & _ & _ & F1 & _). pose proof M2 as (_ & _ & _ & _ & F2 & _). pose proof M3 as (_ & _ & _ & _ & F3 & _).
    pose proof M4 as (_ & _ & _ & _ & F4 & _). pose proof M5 as (_ & _ & _ & _ & F5 & _).
    unfold own_claims, bond_claims. cbn [app flat_map map view_of pv_rx pv_app pv_c pv_kapp pv_kbridge pv_kunified child_k ck_application ck_bridge ck_unified bonded].
    repeat apply Forall_cons; [..|apply Forall_nil].
    - exact Raw.
    - exact (app_complete o body outs _ y z En Eo O (App y z)).
    - apply (int_complete Hashes1Circuit _ _ _ _ _ _ y z (s_hashes_1_gen cb hs N' P of_u tag log2) eq_refl) with (2 := M1).
      intros e. cbn [parts map lsum fold_right length fsum nth native_rx]. unfold pre, oe. ring.
    - apply (int_complete Hashes2Circuit _ _ _ _ _ _ y z (s_hashes_2_gen cb N' P) eq_refl) with (2 := M2).
      intros e. cbn [parts map lsum fold_right length fsum nth native_rx coeff_at]. unfold pre, oe. ring.
    - apply (int_complete InnerCollapseCircuit _ _ _ _ _ _ y z (s_inner_gen cb hs M N' P) eq_refl) with (2 := M3).
      intros e. cbn [parts map lsum fold_right length fsum nth native_rx]. unfold pre, oe, ie. ring.
    - apply (int_complete OuterCollapseCircuit _ _ _ _ _ _ y z (s_outer_gen cb hs N' P) eq_refl) with (2 := M4).
      intros e. cbn [parts map lsum fold_right length fsum nth native_rx]. unfold pre, oe. ring.
    - apply (int_complete ComputeVCircuit _ _ _ _ _ _ y z (s_compute_v_gen cb hs M N' lg nbits gen fsqrt zeta (internal_omega T)) eq_refl) with (2 := M5).
      intros e. cbn [parts map lsum fold_right length fsum nth native_rx]. unfold pre. ring.
    - exact (One PreambleStage _ RxPreamble eq_refl eq_refl (SM _ _) (proj2 Ppre y)).
    - exact (One InnerErrorStage _ RxInnerError eq_refl eq_refl (SM _ _) (proj2 Pie y)).
    - exact (One OuterErrorStage _ RxOuterError eq_refl eq_refl (SM _ _) (proj2 Poe y)).
    - exact (One QueryStage _ RxQuery eq_refl eq_refl (SM _ _) (proj2 Pq y)).
    - exact (One EvalStage _ RxEval eq_refl eq_refl (SM _ _) (proj2 Pe y)).
    - exact (One InnerErrorFinalStaged _ RxInnerCollapse eq_refl eq_refl (SF _ _) (F3 y)).
    - apply (bond_complete OuterErrorFinalStaged _ y z eq_refl (SF _ _)). intros i [<-|[<-|[<-|[]]]]; [exact (F1 y)|exact (F2 y)|exact (F4 y)].
    - exact (One EvalFinalStaged _ RxComputeV eq_refl eq_refl (SF _ _) (F5 y)).
  Qed.
End Complete.
