(** What a proof must be for the next step to build on it, written without the prover. *)
From Coq Require Import List Arith NArith.
From Verif Require Import FieldDef ModDef ArithModel FFTModel SparseModel SparseSpec GadgetModel EndoSpec SpongeModel StageModel RegModel PcdModel PcdSpec QvModel RecModel RecSpec RecStageModel RecStageSpec EscModel CompileModel CompileSpec CompileSpec2 SatProofs Props_Rec VerifyModel VerifySpec NestedModel NestedSpec FuseModel.
Import ListNotations.
Local Open Scope nat_scope.

Section FuseSpec.
  Variables (F Fs : Field) (H : FMod F).
  Variables (T : TwoAdic F) (lg : nat) (repr : F -> N) (native : registry F) (gens : list H) (cb : F) (hs circuits : nat).
  Local Notation n := (2 ^ lg).
  (** its polynomials are well formed, its circuit is registered, its points are finite
      and on the curve, its commitments are those of its polynomials, v is p(u), and its
      registry polynomial is the registry's at its x and y *)
  Record valid (c : fproof F Fs H) (u : uvals F) : Prop := mk_valid {
    vd_wf : wf_proof n (fp_proof c);
    vd_id : N.to_nat (pf_circuit_id (fp_proof c)) < circuits;
    vd_left : length (pf_left_header (fp_proof c)) = hs;
    vd_right : length (pf_right_header (fp_proof c)) = hs;
    vd_published : published (fp_proof c) u;
    vd_points : pts_on cb u;
    vd_commit : forall i, p_commit (4 * n) gens (native_rx (fp_proof c) i) = Some (fp_cm c i);
    vd_commit_xy : p_commit (4 * n) gens (pf_registry_xy (fp_proof c)) = Some (fp_xy_cm c);
    vd_commit_p : p_commit (4 * n) gens (pf_p (fp_proof c)) = Some (pf_p_commitment (fp_proof c));
    vd_eval : p_eval (4 * n) (pf_p (fp_proof c)) (pf_chal (fp_proof c) Ch_u) = pf_v (fp_proof c);
    vd_registry : reg_xy F 1 lg native (pf_chal (fp_proof c) Ch_x) (pf_chal (fp_proof c) Ch_y) = Some (pf_registry_xy (fp_proof c)) }.
  (** its claims hold at all challenges, for the header [out]; the traces of a bonding
      claim each on its own *)
  Definition sound (c : fproof F Fs H) (u : uvals F) (out : list F) : Prop :=
    forall y (sy : nat -> poly F), (forall i, i < circuits -> circuit_y F T lg repr native (N.of_nat i) y = Some (sy i)) ->
      (forall z, Forall (claim_holds n z sy) (own_claims (view_of (fp_proof c) (child_k (shown T (fp_proof c) u out) y)))) /\
      (forall id i, In i (bonded id) ->
         fsum (4 * n) (fun k => fmul (coeff_at (native_rx (fp_proof c) (Rx i)) k) (coeff_at (sy (internal_index id)) (4 * n - 1 - k))) = f0).

  (** ** what a step must have computed *)
  Variables (M N' : nat) (P : pparams F) (of_u : N -> F) (tag : list N) (log2 nbits : nat) (gen zeta : F).
  (** the instance [u] of the new proof: its points are the commitments of the bridges *)
  Definition instance_of (R : frun F Fs H) (u : uvals F) : Prop :=
    (forall f, br_commitment (fr_bridge _ _ _ R f) = Some (uv_pt u f)) /\
    uv_el u Uw = fr_chal _ _ _ R Ch_w /\ uv_el u Uy = fr_chal _ _ _ R Ch_y /\ uv_el u Uz = fr_chal _ _ _ R Ch_z /\
    uv_el u Umu = fr_chal _ _ _ R Ch_mu /\ uv_el u Unu = fr_chal _ _ _ R Ch_nu /\
    uv_el u Umu' = fr_chal _ _ _ R Ch_mu' /\ uv_el u Unu' = fr_chal _ _ _ R Ch_nu' /\
    uv_el u Uc = fr_c _ _ _ R /\ uv_el u Ux = fr_chal _ _ _ R Ch_x /\ uv_el u Ualpha = fr_chal _ _ _ R Ch_alpha /\
    uv_el u Uu = fr_chal _ _ _ R Ch_u /\ uv_el u Upre_beta = fr_chal _ _ _ R Ch_pre_beta /\ uv_el u Uv = fr_v _ _ _ R.
  (** challenges at which the circuits cannot run: zero x or z, or u among the points
      opened *)
  Definition degenerate (l r : fproof F Fs H) (R : frun F Fs H) : Prop :=
    let ch := fr_chal _ _ _ R in
    ch Ch_x = f0 \/ ch Ch_z = f0 \/
    In (ch Ch_u) (points_of (mk_denoms (child_denoms F Fs H T l) (child_denoms F Fs H T r) (ch Ch_w) (ch Ch_x) (ch Ch_y) (fmul (ch Ch_x) (ch Ch_z)) (internal_omega T))).
  (** a polynomial in range with its commitment *)
  Definition committed (p : poly F * H) : Prop := wf 0 (4 * n) (fst p) /\ p_commit (4 * n) gens (fst p) = Some (snd p).
  (** the step relation holds between the children and the new instance, the stages
      carry its witnesses, and the accumulated polynomials are committed and opened *)
  Record stepped (bl : blinds F Fs) (l r : pvals F) (R : frun F Fs H) (u : uvals F) : Prop := mk_stepped {
    sp_instance : instance_of R u;
    sp_transcript : transcript_1 P (tag_values F of_u tag) u (ov_sponge (fr_outer _ _ _ R));
    sp_step : step_rel true P (tag_values F of_u tag) log2 cb lg M N' nbits gen zeta (internal_omega T) l r
                (fr_outer _ _ _ R) (fr_errors _ _ _ R) (fr_queries _ _ _ R) (fr_evals _ _ _ R) u;
    sp_outer_size : oe_sized N' (pp_T P) (fr_outer _ _ _ R);
    sp_inner_size : ie_sized M N' (fr_errors _ _ _ R);
    sp_pre : stage_rx n [] (pre_wires hs) (bl_pre bl) (pre_write l r) = Some (fst (fr_pre _ _ _ R));
    sp_oe : stage_rx n [pre_wires hs] (oe_wires N' (pp_T P)) (bl_oe bl) (oe_write (fr_outer _ _ _ R)) = Some (fst (fr_oe _ _ _ R));
    sp_ie : stage_rx n [oe_wires N' (pp_T P); pre_wires hs] (ie_wires M N') (bl_ie bl) (concat (fr_errors _ _ _ R)) = Some (fst (fr_ie _ _ _ R));
    sp_query : stage_rx n [pre_wires hs] query_wires (bl_query bl) (query_write (fr_queries _ _ _ R)) = Some (fst (fr_query _ _ _ R));
    sp_eval : stage_rx n [query_wires; pre_wires hs] eval_wires (bl_eval bl) (eval_write (fr_evals _ _ _ R)) = Some (fst (fr_eval _ _ _ R));
    sp_stage_commits : Forall (fun p => p_commit (4 * n) gens (fst p) = Some (snd p))
      [fr_pre _ _ _ R; fr_ie _ _ _ R; fr_oe _ _ _ R; fr_query _ _ _ R; fr_eval _ _ _ R];
    sp_commits : Forall committed [eo_a (fr_ps _ _ _ R); eo_b (fr_ps _ _ _ R); eo_xy (fr_ps _ _ _ R); fr_p _ _ _ R];
    sp_c : fsum (4 * n) (fun k => fmul (coeff_at (fst (eo_a (fr_ps _ _ _ R))) k) (coeff_at (fst (eo_b (fr_ps _ _ _ R))) (4 * n - 1 - k))) = fr_c _ _ _ R;
    sp_v : fsum (4 * n) (fun k => fmul (coeff_at (fst (fr_p _ _ _ R)) k) (fpow (fr_chal _ _ _ R Ch_u) k)) = fr_v _ _ _ R;
    sp_registry : reg_xy F 1 lg native (fr_chal _ _ _ R Ch_x) (fr_chal _ _ _ R Ch_y) = Some (fst (eo_xy (fr_ps _ _ _ R))) }.
  (** ** the other curve *)
  (** the commitments carried by each bridge *)
  Definition bridge_points (l r : fproof F Fs H) (R : frun F Fs H) (f : upt) : list H :=
    let ps := fr_ps _ _ _ R in
    let child c := map (fun i => fp_cm c (Rx i)) [RxApplication; RxHashes1; RxHashes2; RxInnerCollapse; RxOuterCollapse; RxComputeV] in
    match f with
    | PPreamble => snd (fr_pre _ _ _ R) :: child l ++ child r
    | PSPrime => [snd (eo_wx0 ps); snd (eo_wx1 ps)]
    | PInnerError => [snd (fr_ie _ _ _ R); snd (eo_wy ps)]
    | POuterError => [snd (fr_oe _ _ _ R)]
    | PAB => [snd (eo_a ps); snd (eo_b ps)]
    | PQuery => [snd (fr_query _ _ _ R); snd (eo_xy ps)]
    | PF => [snd (fr_f _ _ _ R)]
    | PEval => [snd (fr_eval _ _ _ R)]
    end.
  (** the bridges in the order of their stages *)
  Definition upts : list upt := [PPreamble; PSPrime; PInnerError; POuterError; PAB; PQuery; PF; PEval].
  (** each bridge carries the coordinates of its commitments and is itself committed; the
      endoscalar and the points of p's commitment are carried by their two stages *)
  Record bridged (Hs : FMod Fs) (aff : H -> option (Fs * Fs)) (aff' : Hs -> option (F * F)) (gens' : list Hs)
      (bl : blinds F Fs) (l r : fproof F Fs H) (R : frun F Fs H) : Prop := mk_bridged {
    bd_bridge : forall j, j < 8 -> let f := nth j upts PPreamble in exists ps,
      map aff (bridge_points l r R f) = map Some ps /\
      stage_rx n (rev (firstn j bridge_values)) (nth j bridge_values 0) (bl_bridge bl f) (coords ps) = Some (br_rx (fr_bridge _ _ _ R f)) /\
      exists c, p_commit (4 * n) gens' (br_rx (fr_bridge _ _ _ R f)) = Some c /\ br_commitment (fr_bridge _ _ _ R f) = aff' c;
    bd_points : points_new NUM_ENDOSCALING_POINTS (lift_native F zeta nbits (fr_endo _ _ _ R))
      (snd (fr_f _ _ _ R) :: map snd (p_order (fr_ps _ _ _ R))) = Some (fr_points _ _ _ R);
    bd_esc : stage_rx n [] nbits (bl_esc bl) (map (fun j => fe Fs (nbit (fr_endo _ _ _ R) j)) (seq 0 nbits)) = Some (fr_esc _ _ _ R);
    bd_pts : exists p0 qs ints, aff (pw_initial (fr_points _ _ _ R)) = Some p0 /\ map aff (pw_inputs (fr_points _ _ _ R)) = map Some qs /\
      map aff (pw_interstitials (fr_points _ _ _ R)) = map Some ints /\
      stage_rx n [nbits] points_values (bl_pts bl) (coords (p0 :: qs ++ ints)) = Some (fr_pts _ _ _ R) }.

  (** ** the traces *)
  (** the application's trace passes for the code of its step and the three headers, the
      five recursion circuits' for the instance, and the nine endoscaling steps'; each
      with the polynomials of its stages *)
  Variables (fsqrt : F -> option F) (zeta' : Fs).
  Record assembled (R : frun F Fs H) (u : uvals F) (code : circuit F) (ol or out : list F)
      (app h1 h2 ic oc cv : poly F) (steps : list (poly Fs)) : Prop := mk_assembled {
    as_wf : wf 0 (4 * n) app /\ coeff_at app 0 = f0;
    as_app : exists outs, couts code = Some outs /\ forall y z, passes F n app (cbody code) outs (ol ++ or ++ out) y z;
    as_h1 : exists q, multi_passes n (hashes_stages F hs N' P) (s_hashes_1 F cb hs N' P of_u tag log2) (u_write u ++ ol ++ or ++ [f0]) h1 q [fst (fr_pre _ _ _ R); fst (fr_oe _ _ _ R)];
    as_h2 : exists q, multi_passes n (hashes_stages F hs N' P) (s_hashes_2 F cb N' P) (u_write u ++ [f0]) h2 q [[]; fst (fr_oe _ _ _ R)];
    as_ic : exists q, multi_passes n (inner_stages F hs M N' P) (s_inner F cb hs M N' P) (u_write u ++ [f0]) ic q [fst (fr_pre _ _ _ R); fst (fr_oe _ _ _ R); fst (fr_ie _ _ _ R)];
    as_oc : exists q, multi_passes n (hashes_stages F hs N' P) (s_outer F cb hs N' P) (u_write u ++ [f0]) oc q [fst (fr_pre _ _ _ R); fst (fr_oe _ _ _ R)];
    as_cv : exists q, multi_passes n (v_stages hs) (s_compute_v F cb hs M N' lg nbits gen fsqrt zeta (internal_omega T)) (u_write u ++ [f0]) cv q
              [fst (fr_pre _ _ _ R); fst (fr_query _ _ _ R); fst (fr_eval _ _ _ R)];
    as_len : length steps = 9;
    as_steps : forall s, s < 9 -> exists q, multi_passes n (esc_stages nbits points_values) (s_esc_step zeta' NUM_ENDOSCALING_POINTS 36 9 s) [] (nth s steps []) q [fr_esc _ _ _ R; fr_pts _ _ _ R] }.
End FuseSpec.
Arguments valid {F Fs H}. Arguments sound {F Fs H}. Arguments instance_of {F Fs H}. Arguments committed {F} {H}. Arguments stepped {F Fs H}. Arguments bridge_points {F Fs H}. Arguments bridged {F Fs H}. Arguments degenerate {F Fs H}. Arguments assembled {F Fs H}.
Arguments vd_wf {F Fs H lg native gens cb hs circuits c u}.
Arguments vd_id {F Fs H lg native gens cb hs circuits c u}.
Arguments vd_left {F Fs H lg native gens cb hs circuits c u}.
Arguments vd_right {F Fs H lg native gens cb hs circuits c u}.
Arguments vd_published {F Fs H lg native gens cb hs circuits c u}.
Arguments vd_points {F Fs H lg native gens cb hs circuits c u}.
Arguments vd_commit {F Fs H lg native gens cb hs circuits c u}.
Arguments vd_commit_xy {F Fs H lg native gens cb hs circuits c u}.
Arguments vd_commit_p {F Fs H lg native gens cb hs circuits c u}.
Arguments vd_eval {F Fs H lg native gens cb hs circuits c u}.
Arguments vd_registry {F Fs H lg native gens cb hs circuits c u}.
Arguments sp_instance {F Fs H T lg native gens cb hs M N' P of_u tag log2 nbits gen zeta bl l r R u}.
Arguments sp_transcript {F Fs H T lg native gens cb hs M N' P of_u tag log2 nbits gen zeta bl l r R u}.
Arguments sp_step {F Fs H T lg native gens cb hs M N' P of_u tag log2 nbits gen zeta bl l r R u}.
Arguments sp_outer_size {F Fs H T lg native gens cb hs M N' P of_u tag log2 nbits gen zeta bl l r R u}.
Arguments sp_inner_size {F Fs H T lg native gens cb hs M N' P of_u tag log2 nbits gen zeta bl l r R u}.
Arguments sp_pre {F Fs H T lg native gens cb hs M N' P of_u tag log2 nbits gen zeta bl l r R u}.
Arguments sp_oe {F Fs H T lg native gens cb hs M N' P of_u tag log2 nbits gen zeta bl l r R u}.
Arguments sp_ie {F Fs H T lg native gens cb hs M N' P of_u tag log2 nbits gen zeta bl l r R u}.
Arguments sp_query {F Fs H T lg native gens cb hs M N' P of_u tag log2 nbits gen zeta bl l r R u}.
Arguments sp_eval {F Fs H T lg native gens cb hs M N' P of_u tag log2 nbits gen zeta bl l r R u}.
Arguments sp_stage_commits {F Fs H T lg native gens cb hs M N' P of_u tag log2 nbits gen zeta bl l r R u}.
Arguments sp_commits {F Fs H T lg native gens cb hs M N' P of_u tag log2 nbits gen zeta bl l r R u}.
Arguments sp_c {F Fs H T lg native gens cb hs M N' P of_u tag log2 nbits gen zeta bl l r R u}.
Arguments sp_v {F Fs H T lg native gens cb hs M N' P of_u tag log2 nbits gen zeta bl l r R u}.
Arguments sp_registry {F Fs H T lg native gens cb hs M N' P of_u tag log2 nbits gen zeta bl l r R u}.
