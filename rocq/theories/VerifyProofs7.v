(** The circuit an accepted proof names. *)
From Coq Require Import List Arith NArith Bool Lia Ring Field.
From Verif Require Import FieldDef ModDef ArithModel ArithSpec ArithProofs FFTModel FFTProofs SparseModel SparseSpec SparseProofs SparseProofs2 TModel TProofs
  FoldModel FoldSpec ClaimModel CircModel CircSpec SyModel SProofs TraceModel CircProofs CircProofs2 SyProofs SyProofs2 SatProofs GadgetModel SpongeModel StageModel StageSpec StageProofs RegModel RegSpec RegProofs RegProofs2
  PcdModel PcdSpec PcdProofs2 RecModel RecSpec CompileModel CompileSpec CompileSpec2 CompileProofs2 RecStageModel RecStageSpec RecStageProofs Props_Step
  VerifyModel VerifySpec VerifyProofs VerifyProofs2 VerifyProofs3 VerifyProofs4 VerifyProofs5 VerifyProofs6.
Import ListNotations.
Local Open Scope nat_scope.

Section Names.
  Variable F : Field.
  Add Field FFvw : (f_theory F).
  Open Scope f_scope.
  Variables (T : TwoAdic F) (lg : nat) (repr : F -> N).
  Variables (hash : list N -> list N) (to_bytes : F -> list N) (from_uniform : list N -> F) (f_of_u64 : N -> F).
  Hypothesis S32 : (ta_S T <= 32)%nat.
  Variables (b : builder F) (r : registry F).
  Hypothesis Hf : finalize F T lg repr hash to_bytes from_uniform f_of_u64 b = Some r.
  Let k := log2_circuits F b.
  Hypothesis inj : forall w w' : F, w ^ (2 ^ k) = 1 -> w' ^ (2 ^ k) = 1 -> omega_key F repr w = omega_key F repr w' -> w = w'.
  Local Notation n := (2 ^ lg)%nat.
  Local Notation NC := (4 * 2 ^ lg)%nat.
  Local Notation key := (rg_key F r).
  Variables (x0 x1 x2 x3 yc onec hc : F).
  Variables (cb : F) (hs M N' : nat) (P : pparams F) (of_u : BinNums.N -> F) (tag : list BinNums.N) (nbits : nat) (gen : F) (fsqrt : F -> option F) (zeta : F) (log2 : nat).
  Local Notation nobj := (native_obj T x0 x1 x2 x3 yc onec hc lg cb hs M N' P of_u tag nbits gen fsqrt zeta log2).
  Hypothesis slots : forall id, exists o, nobj id = Some o /\ nth_error (reg_order b) (internal_index id) = Some o.
  Variables (Fs : Field) (H : FMod F) (p : proof F Fs H) (u : uvals F) (out : list F) (s : F) (ys : list F).
  Hypothesis Wp : forall c, wf 0 NC (native_rx p c).
  Local Notation syr := (syr F T lg repr r).
  Let view (y : F) := view_of p (child_k (shown T p u (out ++ [s])) y).
  Hypothesis Nd : NoDup ys.
  Hypothesis Ly : (NC <= length ys)%nat.
  Hypothesis claims : forall y, In y ys -> exists zs, NoDup zs /\ (NC <= length zs)%nat /\
    forall z, In z zs -> Forall (claim_holds n z (syr y)) (own_claims (view y) ++ bond_claims 0 [view y]).
  Hypothesis Lul : length (pf_left_header p) = hs.
  Hypothesis Lur : length (pf_right_header p) = hs.
  Hypothesis Luo : length (out ++ [s]) = hs.
  Hypothesis dom : (N.to_nat (pf_circuit_id p) < 2 ^ k)%nat.
  Hypothesis Hs : s <> 0.

  Let cid := N.to_nat (pf_circuit_id p).
  Let hdr := pf_left_header p ++ pf_right_header p ++ out.
  Lemma app_claim y : In y ys -> exists zs, NoDup zs /\ (NC <= length zs)%nat /\
    forall z, In z zs -> circ_sum F n z (pf_application p) (syr y cid) = ky_eval (hdr ++ [s]) y.
  Proof.
    intros Iy. destruct (claims y Iy) as (zs & Nz & Lz & Hz). exists zs. split; [exact Nz|]. split; [exact Lz|]. intros z Iz.
    specialize (Hz z Iz). rewrite Forall_forall in Hz.
    pose proof (Hz (CApp cid (pf_application p), k_of (pf_left_header p ++ pf_right_header p ++ (out ++ [s])) y) (or_intror (or_introl eq_refl))) as V.
    unfold claim_holds in V. cbn [fst snd a_coeff b_coeff] in V. unfold hdr. rewrite ky_ok, <- !app_assoc. unfold k_of in V. rewrite <- V. reflexivity.
  Qed.
  Lemma hdr_len : (S (length (hdr ++ [s])) <= NC)%nat.
  Proof.
    assert (SM : forall m, stage_mask n [] (pre_wires hs) = Some m -> (1 <= fst m /\ fst m + snd m <= n)%nat) by (intros m; apply mask_new_inv).
    destruct (bond_slot F T lg repr hash to_bytes from_uniform f_of_u64 S32 b r Hf inj x0 x1 x2 x3 yc onec hc cb hs M N' P of_u tag nbits gen fsqrt zeta log2 slots PreambleStage _ eq_refl SM) as (m & E & _ & B & _).
    unfold stage_mask, mask_new in E. destruct (_ =? _)%nat in E; [discriminate|]. destruct (_ <? _)%nat in E; [discriminate|]. injection E as <-.
    cbn [fst snd] in B. unfold pre_wires in B.
    pose proof (ceil2_bounds (2 * pin_wires hs)) as X. unfold pin_wires in *.
    unfold hdr. rewrite <- !app_assoc, !app_length, Lul, Lur. rewrite app_length in Luo. rewrite Luo. lia.
  Qed.
  Lemma names_step : (13 <= cid < length (reg_order b))%nat.
  Proof.
    assert (Hn : (0 < n)%nat) by (pose proof (Nat.pow_nonzero 2 lg); lia). assert (LL := hdr_len).
    assert (Wa : wf 0 NC (pf_application p)) by exact (Wp (Rx RxApplication)).
    destruct (Nat.lt_ge_cases cid 13) as [Hi|Hi].
    - exfalso.
      assert (SM : forall pa v m, stage_mask n pa v = Some m -> (1 <= fst m /\ fst m + snd m <= n)%nat) by (intros pa v m; apply mask_new_inv).
      assert (SF : forall pa v m, stage_final_mask n pa v = Some m -> (1 <= fst m /\ fst m + snd m <= n)%nat) by (intros pa v m; apply mask_final_inv).
      assert (XM : forall id mk, cid = internal_index id -> nobj id = mask_obj lg mk -> (forall m, mk = Some m -> 1 <= fst m /\ fst m + snd m <= n)%nat -> False).
      { intros id mk Ec Eo Bm. destruct (bond_slot F T lg repr hash to_bytes from_uniform f_of_u64 S32 b r Hf inj x0 x1 x2 x3 yc onec hc cb hs M N' P of_u tag nbits gen fsqrt zeta log2 slots id mk Eo Bm) as ([sk nu] & _ & B1 & B2 & Hy).
        cbn [fst snd] in B1, B2. apply (mask_excl F n Hn key sk nu (hdr ++ [s]) (pf_application p) ys B1 B2 Wa Nd Ly LL). intros y Iy.
        destruct (app_claim y Iy) as (zs & A & B & C). exists zs. split; [exact A|]. split; [exact B|]. intros z Iz.
        destruct (Hy y) as (q & Eq & _ & _ & _ & Km). exists q, (syr y (internal_index id)). rewrite <- Ec. split; [exact Eq|]. split; [rewrite Ec; exact Km|]. exact (C z Iz). }
      assert (XC : forall id stages (c : staged F), cid = internal_index id -> generic_staged c -> nobj id = multi_obj x0 x1 x2 x3 yc onec hc lg stages c ->
        (forall gs, lleaves F (ends_zero F) (c F f1 gs)) -> False).
      { intros id stages c Ec G Eo Lz. apply Hs.
        destruct (multi_slot F T lg repr hash to_bytes from_uniform f_of_u64 S32 b r Hf inj x0 x1 x2 x3 yc onec hc cb hs M N' P of_u tag nbits gen fsqrt zeta log2 slots id stages c G Eo) as (bo & ou & S & Fi & O & Hy).
        apply (circ_excl F n Hn key stages c bo ou hdr s (pf_application p) ys G S Lz Fi Wa Nd Ly LL ltac:(lia)). intros y Iy.
        destruct (app_claim y Iy) as (zs & A & B & C). exists zs. split; [exact A|]. split; [exact B|]. intros z Iz.
        destruct (Hy y) as (q & Eq & _ & _ & _ & Km). exists q, (syr y (internal_index id)). split; [exact Eq|]. split; [exact Km|]. rewrite <- Ec. exact (C z Iz). }
      destruct cid as [|[|[|[|[|[|[|[|[|[|[|[|[|c]]]]]]]]]]]]] eqn:Ec; [..|lia].
      + exact (XC Hashes1Circuit _ _ eq_refl (s_hashes_1_gen cb hs N' P of_u tag log2) eq_refl (h1_zero F cb P hs N' of_u tag log2)).
      + exact (XC Hashes2Circuit _ _ eq_refl (s_hashes_2_gen cb N' P) eq_refl (h2_zero F cb P N')).
      + exact (XC InnerCollapseCircuit _ _ eq_refl (s_inner_gen cb hs M N' P) eq_refl (inner_zero F cb P hs M N')).
      + exact (XC OuterCollapseCircuit _ _ eq_refl (s_outer_gen cb hs N' P) eq_refl (outer_zero F cb P hs N')).
      + exact (XC ComputeVCircuit _ _ eq_refl (s_compute_v_gen cb hs M N' lg nbits gen fsqrt zeta (internal_omega T)) eq_refl (v_zero F cb hs M N' lg nbits gen fsqrt zeta (internal_omega T))).
      + exact (XM PreambleStage _ eq_refl eq_refl (SM _ _)).
      + exact (XM InnerErrorStage _ eq_refl eq_refl (SM _ _)).
      + exact (XM OuterErrorStage _ eq_refl eq_refl (SM _ _)).
      + exact (XM QueryStage _ eq_refl eq_refl (SM _ _)).
      + exact (XM EvalStage _ eq_refl eq_refl (SM _ _)).
      + exact (XM InnerErrorFinalStaged _ eq_refl eq_refl (SF _ _)).
      + exact (XM OuterErrorFinalStaged _ eq_refl eq_refl (SF _ _)).
      + exact (XM EvalFinalStaged _ eq_refl eq_refl (SF _ _)).
    - split; [exact Hi|]. destruct (Nat.lt_ge_cases cid (length (reg_order b))) as [Hl|Hl]; [exact Hl|]. exfalso.
      apply (empty_excl F n Hn key (hdr ++ [s]) (pf_application p) ys Wa Nd Ly LL). intros y Iy.
      destruct (app_claim y Iy) as (zs & A & B & C). exists zs. split; [exact A|]. split; [exact B|]. intros z Iz. exists (syr y cid).
      split; [|exact (C z Iz)].
      destruct (slot_y F T lg repr hash to_bytes from_uniform f_of_u64 S32 b r Hf inj cid y [] dom) as (m & Em & _ & Km).
      + apply nth_error_None in Hl. now rewrite Hl.
      + exact I.
      + unfold VerifyProofs4.syr. rewrite Em. exact Km.
  Qed.
End Names.
