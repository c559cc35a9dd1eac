(** What a verified proof is, written without the verifier: the instance a proof
    publishes, its claims as sums over coefficients, and the relation the whole
    check amounts to. *)
From Coq Require Import List Arith NArith.
From Verif Require Import FieldDef ModDef FFTModel SparseModel SparseSpec FoldSpec AppSpec RegModel RegSpec PcdModel PcdSpec RecModel RecSpec VerifyModel.
Import ListNotations.
Local Open Scope nat_scope.

Section VerifySpec.
  Variables (F Fs : Field) (H : FMod F).
  Local Notation proof := (proof F Fs H).

  (** the unified instance of a proof: its eight points, none of them at infinity, its
      challenges, and its values c and v *)
  Definition published (p : proof) (u : uvals F) : Prop :=
    (forall f, br_commitment (pf_bridge p f) = Some (uv_pt u f)) /\
    uv_el u Uw = pf_chal p Ch_w /\ uv_el u Uy = pf_chal p Ch_y /\ uv_el u Uz = pf_chal p Ch_z /\
    uv_el u Umu = pf_chal p Ch_mu /\ uv_el u Unu = pf_chal p Ch_nu /\
    uv_el u Umu' = pf_chal p Ch_mu' /\ uv_el u Unu' = pf_chal p Ch_nu' /\
    uv_el u Uc = pf_c p /\ uv_el u Ux = pf_chal p Ch_x /\ uv_el u Ualpha = pf_chal p Ch_alpha /\
    uv_el u Uu = pf_chal p Ch_u /\ uv_el u Upre_beta = pf_chal p Ch_pre_beta /\ uv_el u Uv = pf_v p.
  (** the proof as its parent sees it, with the header [out] of the claimed data *)
  Definition shown (T : TwoAdic F) (p : proof) (u : uvals F) (out : list F) : pvals F :=
    mk_pvals (pf_left_header p) (pf_right_header p) out (omega_j T (pf_circuit_id p)) u.

  (** the claims with their expected values *)
  Definition view_of (p : proof) (k : child_ky F) : pview (poly F) nat F :=
    mk_pview (native_rx p) (N.to_nat (pf_circuit_id p)) (pf_c p) (ck_application k) (ck_bridge k) (ck_unified k).
  (** a claim holds: sum of a_k b_{4n-1-k} is the expected value *)
  Definition claim_holds (n : nat) (z : F) (sy : nat -> poly F) (c : claim (poly F) nat * F) : Prop :=
    fsum (4 * n) (fun k => fmul (a_coeff z (fst c) k) (b_coeff n z sy (fst c) (4 * n - 1 - k))) = snd c.

  (** the nested claims *)
  Definition nested_poly (p : proof) (c : nrxid) : poly Fs :=
    match c with
    | NrStep s => nth s (pf_step_rxs p) []
    | NrEndoscalar => pf_endoscalar_rx p
    | NrPoints => pf_points_rx p
    | NrPreamble => br_rx (pf_bridge p PPreamble) | NrSPrime => br_rx (pf_bridge p PSPrime)
    | NrInnerError => br_rx (pf_bridge p PInnerError) | NrOuterError => br_rx (pf_bridge p POuterError)
    | NrAB => br_rx (pf_bridge p PAB) | NrQuery => br_rx (pf_bridge p PQuery)
    | NrF => br_rx (pf_bridge p PF) | NrEval => br_rx (pf_bridge p PEval)
    end.
  Definition nested_slot (steps : nat) (id : ncid) : nat :=
    match id with
    | NStep s => s
    | NEndoscalar => steps | NPoints => steps + 1 | NPointsFinal => steps + 2
    | NBridgePreamble => steps + 3 | NBridgeSPrime => steps + 4 | NBridgeInnerError => steps + 5 | NBridgeOuterError => steps + 6
    | NBridgeAB => steps + 7 | NBridgeQuery => steps + 8 | NBridgeF => steps + 9 | NBridgeEval => steps + 10
    end.
  Definition na_coeff (z : Fs) (c : nclaim (poly Fs)) (k : nat) : Fs :=
    match c with
    | NInt _ rs => lsum (map (fun r => coeff_at r k) rs)
    | NBond _ rs => hfold (length rs) z (fun i => coeff_at (nth i rs []) k)
    end.
  Definition nb_coeff (n steps : nat) (z : Fs) (sy : nat -> poly Fs) (c : nclaim (poly Fs)) (k : nat) : Fs :=
    match c with
    | NInt id _ => fadd (fadd (fmul (na_coeff z c k) (fpow z k)) (coeff_at (sy (nested_slot steps id)) k)) (t_coeff n z k)
    | NBond id _ => coeff_at (sy (nested_slot steps id)) k
    end.
  Definition nclaim_holds (n steps : nat) (z : Fs) (sy : nat -> poly Fs) (c : nclaim (poly Fs) * Fs) : Prop :=
    fsum (4 * n) (fun k => fmul (na_coeff z (fst c) k) (nb_coeff n steps z sy (fst c) (4 * n - 1 - k))) = snd c.

  (** the polynomials of a proof are well formed *)
  Definition wf_proof (n : nat) (p : proof) : Prop :=
    (forall c, wf 0 (4 * n) (native_rx p c)) /\ (forall c, wf 0 (4 * n) (nested_poly p c)) /\
    wf 0 (4 * n) (pf_registry_xy p) /\ wf 0 (4 * n) (pf_p p).

  (** everything the verifier checks, for wiring polynomials [sy], [sy'] of the
      registered circuits at the challenges y, y' *)
  Record verified (T : TwoAdic F) (n hs steps : nat) (gens : list H) (sy : nat -> poly F) (sy' : nat -> poly Fs) (mwxy : F)
      (p : proof) (s : F) (d : list F) (u : uvals F) (w y z : F) (z' : Fs) : Prop := mk_verified {
    vf_left : length (pf_left_header p) = hs;
    vf_right : length (pf_right_header p) = hs;
    vf_data : length d < hs;
    vf_published : published p u;
    vf_native : let v := view_of p (child_k (shown T p u (padded hs s d)) y) in
                Forall (claim_holds n z sy) (own_claims v ++ bond_claims f0 [v]);
    vf_steps : steps <= length (pf_step_rxs p);
    vf_nested : Forall (nclaim_holds n steps z' sy') (nested_own f1 steps (nested_poly p) ++ nested_bond f0 steps [nested_poly p]);
    vf_eval : fsum (4 * n) (fun k => fmul (coeff_at (pf_p p) k) (fpow (pf_chal p Ch_u) k)) = pf_v p;
    vf_commit : msum (4 * n) (fun k => mscale (coeff_at (pf_p p) k) (nth k gens m0)) = pf_p_commitment p;
    vf_registry : fsum (4 * n) (fun k => fmul (coeff_at (pf_registry_xy p) k) (fpow w k)) = mwxy }.
End VerifySpec.
Arguments published {F Fs H}. Arguments shown {F Fs H}. Arguments view_of {F Fs H}. Arguments claim_holds {F}.
Arguments nested_poly {F Fs H}. Arguments na_coeff {Fs}. Arguments nb_coeff {Fs}. Arguments nclaim_holds {Fs}.
Arguments wf_proof {F Fs H}. Arguments verified {F Fs H}.
