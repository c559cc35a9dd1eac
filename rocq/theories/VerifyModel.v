(** The verifier (crates/ragu_pcd/src/verify.rs) with the proof structure it reads
    (proof/mod.rs, proof/components.rs) and the objects of the native circuits
    (internal/native/mod.rs).

    Simplifications.  Of a proof only the parts that the verifier reads are kept:
    the other commitments and the polynomials registry_wx0, registry_wx1,
    registry_wy and f are left out.  [Err] and panics are both [None].  The random
    challenges are arguments. *)
From Coq Require Import List Arith NArith Bool.
From Verif Require Import FieldDef ModDef ArithModel FFTModel SparseModel GadgetModel FoldModel SpongeModel CircModel RegModel StageModel CompileModel ClaimModel PcdModel
  AppModel RecModel RecStageModel EmuModel.
Import ListNotations.
Local Open Scope nat_scope.

(** proof/components.rs:149-164 [Challenges] *)
Inductive chal := Ch_w | Ch_y | Ch_z | Ch_mu | Ch_nu | Ch_mu' | Ch_nu' | Ch_x | Ch_alpha | Ch_u | Ch_pre_beta.

Section Verify.
  Variables (F Fs : Field).  (* C::CircuitField, C::ScalarField *)
  Variable H : FMod F.       (* the host curve *)
  Local Notation Poly := (list (nat * list F)).
  Local Notation Polys := (list (nat * list Fs)).

  (** components.rs:37-41 [Bridge]; a point of the nested curve is [None] at infinity *)
  Record bridge := mk_bridge { br_rx : Polys; br_commitment : option (F * F) }.
  (** mod.rs:64-78 [Proof] with components.rs:20-174.  [pf_bridge] collects the fields
      [bridge] of the components preamble, s_prime, inner_error, outer_error, ab,
      query, f and eval. *)
  Record proof := mk_proof {
    pf_circuit_id : N; pf_left_header : list F; pf_right_header : list F; pf_application : Poly;
    pf_preamble : Poly; pf_inner_error : Poly; pf_outer_error : Poly; pf_query : Poly; pf_eval : Poly;
    pf_hashes_1 : Poly; pf_hashes_2 : Poly; pf_inner_collapse : Poly; pf_outer_collapse : Poly; pf_compute_v : Poly;
    pf_a : Poly; pf_b : Poly; pf_c : F;
    pf_registry_xy : Poly;
    pf_p : Poly; pf_p_commitment : H; pf_v : F;
    pf_step_rxs : list Polys; pf_endoscalar_rx : Polys; pf_points_rx : Polys;
    pf_bridge : upt -> bridge;
    pf_chal : chal -> F }.

  (** mod.rs:80-98 [Index<RxIndex>], 129-146 [native_rx] *)
  Definition native_rx (p : proof) (c : rxcomp) : Poly :=
    match c with
    | AbA => pf_a p
    | AbB => pf_b p
    | Rx RxPreamble => pf_preamble p
    | Rx RxInnerError => pf_inner_error p
    | Rx RxOuterError => pf_outer_error p
    | Rx RxQuery => pf_query p
    | Rx RxEval => pf_eval p
    | Rx RxApplication => pf_application p
    | Rx RxHashes1 => pf_hashes_1 p
    | Rx RxHashes2 => pf_hashes_2 p
    | Rx RxInnerCollapse => pf_inner_collapse p
    | Rx RxOuterCollapse => pf_outer_collapse p
    | Rx RxComputeV => pf_compute_v p
    end.
  (** mod.rs:100-118 [Index<nested::RxIndex>]; [None] is the index panic *)
  Definition nested_rx (p : proof) (c : nrxid) : option Polys :=
    match c with
    | NrStep step => nth_error (pf_step_rxs p) step
    | NrEndoscalar => Some (pf_endoscalar_rx p)
    | NrPoints => Some (pf_points_rx p)
    | NrPreamble => Some (br_rx (pf_bridge p PPreamble))
    | NrSPrime => Some (br_rx (pf_bridge p PSPrime))
    | NrInnerError => Some (br_rx (pf_bridge p PInnerError))
    | NrOuterError => Some (br_rx (pf_bridge p POuterError))
    | NrAB => Some (br_rx (pf_bridge p PAB))
    | NrQuery => Some (br_rx (pf_bridge p PQuery))
    | NrF => Some (br_rx (pf_bridge p PF))
    | NrEval => Some (br_rx (pf_bridge p PEval))
    end.

  (** ** the expected values *)
  Section Ky.
    Variable W : Type.
    Variable one : W.
    Variable cb : F.
    Variable hs : nat.
    Variable T : TwoAdic F.
    Local Notation G := (G F W).
    (** unified.rs:417-473 [alloc_from_proof] *)
    Definition alloc_from_proof (p : proof) : G (uout F W) :=
      let pt f := p_alloc F W one cb (Some (br_commitment (pf_bridge p f))) in
      let el v := e_alloc F W (Some v) in
      bridge_preamble <- pt PPreamble ;;
      w <- el (pf_chal p Ch_w) ;;
      bridge_s_prime <- pt PSPrime ;;
      y <- el (pf_chal p Ch_y) ;;
      z <- el (pf_chal p Ch_z) ;;
      bridge_inner_error <- pt PInnerError ;;
      mu <- el (pf_chal p Ch_mu) ;;
      nu <- el (pf_chal p Ch_nu) ;;
      bridge_outer_error <- pt POuterError ;;
      mu_prime <- el (pf_chal p Ch_mu') ;;
      nu_prime <- el (pf_chal p Ch_nu') ;;
      c <- el (pf_c p) ;;
      bridge_ab <- pt PAB ;;
      x <- el (pf_chal p Ch_x) ;;
      bridge_query <- pt PQuery ;;
      alpha <- el (pf_chal p Ch_alpha) ;;
      bridge_f <- pt PF ;;
      u <- el (pf_chal p Ch_u) ;;
      bridge_eval <- pt PEval ;;
      pre_beta <- el (pf_chal p Ch_pre_beta) ;;
      v <- el (pf_v p) ;;
      GRet (mk_uout F W
        (fun f => match f with
                  | PPreamble => bridge_preamble | PSPrime => bridge_s_prime | PInnerError => bridge_inner_error
                  | POuterError => bridge_outer_error | PAB => bridge_ab | PQuery => bridge_query | PF => bridge_f | PEval => bridge_eval
                  end)
        (fun f => match f with
                  | Uw => w | Uy => y | Uz => z | Umu => mu | Unu => nu | Umu' => mu_prime | Unu' => nu_prime | Uc => c
                  | Ux => x | Ualpha => alpha | Uu => u | Upre_beta => pre_beta | Uv => v
                  end)).
    (** stages/preamble.rs:164-181 [alloc_header] *)
    Definition alloc_header (data : list F) : G (list (elem F W)) :=
      if length data =? hs then alloc_all F W (map Some data) else GErr.
    (** preamble.rs:159-204 [ProofInputs::alloc] *)
    Definition inputs_alloc (p : proof) (output_header : list F) : G (pinputs F W) :=
      l <- alloc_header (pf_left_header p) ;;
      r <- alloc_header (pf_right_header p) ;;
      o <- alloc_header output_header ;;
      cid <- e_alloc F W (Some (omega_j T (pf_circuit_id p))) ;;
      u <- alloc_from_proof p ;;
      GRet (mk_pinputs F W l r o cid u).
    (** preamble.rs:208-231 [alloc_for_verify]: [data] are the values the header's
        gadget writes ([None]: encoding it fails), [sfx] the value of its suffix *)
    Definition alloc_for_verify (p : proof) (sfx : option F) (data : option (list F)) : G (pinputs F W) :=
      match obind data (emulated_padded F hs sfx) with
      | None => GErr
      | Some h => inputs_alloc p h
      end.
    (** verify.rs:61-75, the emulated part: unified, bridge and application values *)
    Definition verify_ky (p : proof) (sfx : option F) (data : option (list F)) (y : F) : G (elem F W * elem F W * elem F W) :=
      ye <- e_alloc F W (Some y) ;;
      i <- alloc_for_verify p sfx data ;;
      ub <- unified_ky_values F W one true i ye ;;
      a <- application_ky F W one true i ye ;;
      GRet (fst ub, snd ub, a).
  End Ky.

  (** ** nested claims *)
  (** internal/nested/claims.rs:33-57, the builder as a [Processor] *)
  Section Nested.
    Variables (n NC steps : nat) (z : Fs) (cy : nat -> option Polys).
    Definition nb_claim (c : nclaim (option Polys)) : option (Polys * Polys) :=
      match c with
      | NInt id rxs =>
          obind (opt_all (fun x => x) rxs) (fun rxs =>
          obind (nested_circuit_index steps id) (fun i =>
          obind (sum_polynomials NC rxs) (b_circuit n NC z cy i)))
      | NBond id rxs =>
          obind (opt_all (fun x => x) rxs) (fun rxs =>
          obind (nested_circuit_index steps id) (fun i =>
          obind (fold_bonding_polys NC z rxs) (b_bond cy i)))
      end.
    Definition nb_build (src : source nrxid (option Polys) unit) : option (list (Polys * Polys)) :=
      opt_all nb_claim (build_nested steps src).
  End Nested.

  (** [.all(|(ky, (a, b))| a.revdot(b) == ky)] *)
  Definition all_revdot {K : Field} (NC : nat) (l : list (list (nat * list K) * list (nat * list K) * K)) : bool :=
    forallb (fun t => feqb (p_revdot NC (fst (fst t)) (snd (fst t))) (snd t)) l.

  Section Run.
    Variables (T : TwoAdic F) (Ts : TwoAdic Fs) (lg : nat).
    Variables (repr : F -> N) (reprs : Fs -> N).
    Variable heq : H -> H -> bool.  (* equality of affine host points *)
    Variable gens : list H.
    Variables (cb : F) (hs steps : nat).
    Variables (native : registry F) (nested : registry Fs).

    (** verify.rs:23-143 [verify] *)
    Definition verify (p : proof) (sfx : option F) (data : option (list F)) (w y z : F) (y' z' : Fs) : option bool :=
      let n := rk_n lg in let nc := rk_nc lg in
      if negb (circuit_in_domain F T native (pf_circuit_id p)) then Some false
      else if negb (length (pf_left_header p) =? hs) || negb (length (pf_right_header p) =? hs) then Some false
      else
        obind (emulate_wireless (verify_ky unit tt cb hs T p sfx data y)) (fun k =>
        match ev F unit (fst (fst k)), ev F unit (snd (fst k)), ev F unit (snd k) with
        | Some unified_ky, Some unified_bridge_ky, Some application_ky =>
            obind (b_build n nc z (fun i => circuit_y F T lg repr native (N.of_nat i) y)
                     (one_source (native_rx p) (N.to_nat (pf_circuit_id p)))) (fun ab =>
            let native_revdot_claims :=
              all_revdot nc (zip_ky (ky_values (one_ky f0 (pf_c p) (mk_child_ky application_ky unified_ky unified_bridge_ky))) ab) in
            obind (nb_build n nc steps z' (fun i => circuit_y Fs Ts lg reprs nested (N.of_nat i) y')
                     (mk_source (fun c => [nested_rx p c]) [])) (fun nab =>
            let nested_revdot_claims := all_revdot nc (zip_ky (nested_ky steps f1 f0) nab) in
            let p_eval_claim := feqb (p_eval nc (pf_p p) (pf_chal p Ch_u)) (pf_v p) in
            obind (p_commit nc gens (pf_p p)) (fun commitment =>
            let p_commitment_claim := heq commitment (pf_p_commitment p) in
            obind (reg_wxy F lg repr native w (pf_chal p Ch_x) (pf_chal p Ch_y)) (fun expected =>
            let registry_xy_claim := feqb (p_eval nc (pf_registry_xy p) w) expected in
            Some (native_revdot_claims && nested_revdot_claims && p_eval_claim && p_commitment_claim && registry_xy_claim)))))
        | _, _, _ => None
        end).
  End Run.
End Verify.
Arguments mk_bridge {F Fs}. Arguments br_rx {F Fs}. Arguments br_commitment {F Fs}. Arguments mk_proof {F Fs H}.
Arguments pf_circuit_id {F Fs H}. Arguments pf_left_header {F Fs H}. Arguments pf_right_header {F Fs H}. Arguments pf_application {F Fs H}.
Arguments pf_preamble {F Fs H}. Arguments pf_inner_error {F Fs H}. Arguments pf_outer_error {F Fs H}. Arguments pf_query {F Fs H}. Arguments pf_eval {F Fs H}.
Arguments pf_hashes_1 {F Fs H}. Arguments pf_hashes_2 {F Fs H}. Arguments pf_inner_collapse {F Fs H}. Arguments pf_outer_collapse {F Fs H}. Arguments pf_compute_v {F Fs H}.
Arguments pf_a {F Fs H}. Arguments pf_b {F Fs H}. Arguments pf_c {F Fs H}. Arguments pf_registry_xy {F Fs H}.
Arguments pf_p {F Fs H}. Arguments pf_p_commitment {F Fs H}. Arguments pf_v {F Fs H}.
Arguments pf_step_rxs {F Fs H}. Arguments pf_endoscalar_rx {F Fs H}. Arguments pf_points_rx {F Fs H}. Arguments pf_bridge {F Fs H}. Arguments pf_chal {F Fs H}.
Arguments native_rx {F Fs H}. Arguments nested_rx {F Fs H}. Arguments all_revdot {K}.
Arguments nb_claim {Fs}. Arguments nb_build {Fs}.
Arguments verify_ky {F Fs H}. Arguments verify {F Fs H}.

(** ** the native circuits *)
Section NativeObjects.
  Variable F : Field.
  Variable T : TwoAdic F.
  (* constants of the metrics (prog_cobj) *)
  Variables (x0 x1 x2 x3 yc onec hc : F) (lg : nat).
  Variable cb : F.
  Variables (hs M N : nat).
  Variable P : pparams F.
  Variables (of_u : BinNums.N -> F) (tag : list BinNums.N) (nbits : nat) (gen : F) (fsqrt : F -> option F) (zeta : F).
  (** compute_v.rs: the identifiers of the internal circuits *)
  Definition internal_omega (id : icid) : F :=
    match circuit_index id with Some i => omega_j T (N.of_nat i) | None => f0 end.
  Definition multi_obj (stages : list (nat * nat)) (k : staged F) : option (cobj F) :=
    obind (sprog stages k) (fun bo => prog_cobj x0 x1 x2 x3 yc onec hc lg (fst bo) (snd bo)).
  Definition mask_obj (m : option (nat * nat)) : option (cobj F) := option_map (mask_cobj F (rk_n lg)) m.
  (** internal/native/mod.rs:317-395 [register_all]: what is registered under an index;
      the parents of the stages are those of stages/*.rs ([type Parent]) *)
  Definition native_obj (log2 : nat) (id : icid) : option (cobj F) :=
    let n := rk_n lg in let pre := pre_wires hs in let oe := oe_wires N (pp_T P) in let ie := ie_wires M N in
    match id with
    | PreambleStage => mask_obj (stage_mask n [] pre)
    | InnerErrorStage => mask_obj (stage_mask n [oe; pre] ie)
    | OuterErrorStage => mask_obj (stage_mask n [pre] oe)
    | QueryStage => mask_obj (stage_mask n [pre] query_wires)
    | EvalStage => mask_obj (stage_mask n [query_wires; pre] eval_wires)
    | InnerErrorFinalStaged => mask_obj (stage_final_mask n [oe; pre] ie)
    | OuterErrorFinalStaged => mask_obj (stage_final_mask n [pre] oe)
    | EvalFinalStaged => mask_obj (stage_final_mask n [query_wires; pre] eval_wires)
    | Hashes1Circuit => multi_obj (hashes_stages F hs N P) (s_hashes_1 F cb hs N P of_u tag log2)
    | Hashes2Circuit => multi_obj (hashes_stages F hs N P) (s_hashes_2 F cb N P)
    | InnerCollapseCircuit => multi_obj (inner_stages F hs M N P) (s_inner F cb hs M N P)
    | OuterCollapseCircuit => multi_obj (hashes_stages F hs N P) (s_outer F cb hs N P)
    | ComputeVCircuit => multi_obj (v_stages hs) (s_compute_v F cb hs M N lg nbits gen fsqrt zeta internal_omega)
    end.
End NativeObjects.
Arguments internal_omega {F}. Arguments native_obj {F}. Arguments multi_obj {F}. Arguments mask_obj {F}.
