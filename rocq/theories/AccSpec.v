(** Forked runs of a recursion step.

    The argument behind one step of the recursion is interactive: the prover sends
    polynomials and values, the verifier answers with challenges (taken from a hash
    once the argument is made non-interactive).  What a step shows about its two
    children is stated for a prover that is rewound: at every challenge enough
    different answers are tried, and what was sent before the challenge is the same
    in all of them.  The hash itself is outside this file: the checks of [hashes_1]
    and [hashes_2] other than those on the challenges are kept, the transcript is
    not. *)
From Coq Require Import List Arith NArith.
From Verif Require Import FieldDef ModDef FFTModel SparseModel SparseSpec FoldModel FoldSpec RegModel RegSpec PcdModel PcdSpec RecModel RecSpec VerifyModel VerifySpec.
Import ListNotations.
Local Open Scope nat_scope.

(** [k] different elements satisfy [P] *)
Definition many {F : Field} (k : nat) (P : F -> Prop) : Prop := exists l, NoDup l /\ k <= length l /\ forall a, In a l -> P a.

(** A registry as the argument sees it: the value m(w, x, y), a polynomial with fewer
    than NC coefficients in each variable, and for each slot the wiring polynomial
    s_i(X, y), which is m(om i, X, y). *)
Record regview (F : Field) := mk_regview { rv_m : F -> F -> F -> F; rv_sy : F -> nat -> poly F }.
Arguments mk_regview {F}. Arguments rv_m {F}. Arguments rv_sy {F}.
Definition poly_in {F : Field} (NC : nat) (f : F -> F) : Prop := exists q : poly F, wf 0 NC q /\ forall t, p_eval NC q t = f t.
Record reg_view_ok {F : Field} (NC : nat) (om : nat -> F) (slots : nat -> Prop) (rv : regview F) : Prop := mk_rvo {
  rvo_w : forall x y, poly_in NC (fun w => rv_m rv w x y);
  rvo_x : forall w y, poly_in NC (fun x => rv_m rv w x y);
  rvo_y : forall w x, poly_in NC (fun y => rv_m rv w x y);
  rvo_slot : forall y i, slots i -> wf 0 NC (rv_sy rv y i) /\ forall x, p_eval NC (rv_sy rv y i) x = rv_m rv (om i) x y }.

Section AccSpec.
  Variables (F : Field) (lg log2 M N : nat) (cb : F) (nbits : nat) (gen zeta : F) (om : nat -> F) (rv : regview F).
  Local Notation n := (2 ^ lg).
  Local Notation NC := (4 * 2 ^ lg).
  (** the children: what the parent sees of them, and their polynomials *)
  Variables (l r : pvals F) (pl pr : ceval (poly F)).

  (** One run: the checks of the circuits of the step other than the transcript, and
      what is left to the holder of the fused proof: c is the revdot product of A and
      B, and p, the combination of the step's polynomials by powers of beta, has the
      value v at u. *)
  Definition run_ok (w y z : F) (wx0 wx1 wy : poly F) (ie : list (list F)) (mu nu : F) (oe : ovals F) (mu' nu' : F) (A B : poly F)
      (x : F) (q : queryout F) (xy : poly F) (al : F) (f : poly F) (u : F) (e : evalout F) (be : F) : Prop :=
    exists U : uvals F,
      map (uv_el U) [Uw; Uy; Uz; Umu; Unu; Umu'; Unu'; Ux; Ualpha; Uu] = [w; y; z; mu; nu; mu'; nu'; x; al; u] /\
      (forall b, is_beta false nbits gen zeta (uv_el U Upre_beta) b -> b = be) /\
      (* hashes_1 *)
      fpow (pv_cid l) (2 ^ log2) = f1 /\ fpow (pv_cid r) (2 ^ log2) = f1 /\
      ov_left oe = child_k l y /\ ov_right oe = child_k r y /\
      (* the collapse circuits and compute_v *)
      inner_collapse_rel M l r oe ie U /\ outer_collapse_rel N l r oe U /\
      compute_v_rel false cb lg M N nbits gen zeta (fun id => om (internal_index id)) l r q e U /\
      (* the fused proof's claim and opening *)
      rdot NC A B = uv_el U Uc /\
      exists p, wf 0 NC p /\
        (forall k, coeff_at p k = hfold 37 be (fun i => coeff_at (nth i (f :: eval_write (mk_evalout pl pr wx0 wx1 wy A B xy)) []) k)) /\
        p_eval NC p u = uv_el U Uv.

  (** The forked runs.  Challenges and messages come in the order of the transcript:
      preamble, w, s', y, z, inner error, mu, nu, outer error, mu', nu', ab, x, query,
      alpha, f, u, eval, beta.  The registry polynomial of the fused proof is the
      registry's. *)
  Definition forked : Prop :=
    many NC (fun w => exists wx0 wx1, wf 0 NC wx0 /\ wf 0 NC wx1 /\
    many NC (fun y => many NC (fun z => exists wy ie, wf 0 NC wy /\ length ie = N /\
    many M (fun mu => many M (fun nu => exists oe, length (ov_collapsed oe) = N /\
    many N (fun mu' => many N (fun nu' => exists A B, wf 0 NC A /\ wf 0 NC B /\
    many NC (fun x => exists q xy, wf 0 NC xy /\ (forall t, p_eval NC xy t = rv_m rv t x y) /\
    many 55 (fun al => exists f, wf 0 NC f /\
    many (NC + 55) (fun u => exists e,
    many 37 (fun be => run_ok w y z wx0 wx1 wy ie mu nu oe mu' nu' A B x q xy al f u e be))))))))))).

  (** What is then true of a child, named circuit [i]: its own claim and opening hold,
      its registry polynomial is the registry's, and its circuits and stages pass their
      checks at enough challenges. *)
  Definition acc_view (c : pvals F) (pc : ceval (poly F)) (i : nat) (y : F) : pview (poly F) nat F :=
    mk_pview (fun j => match j with AbA => ce_a pc | AbB => ce_b pc | Rx k => ce_rx pc k end) i (uv_el (pv_uni c) Uc)
             (ck_application (child_k c y)) (ck_bridge (child_k c y)) (ck_unified (child_k c y)).
  Record child_true (c : pvals F) (pc : ceval (poly F)) (i : nat) : Prop := mk_ct {
    ct_claim : rdot NC (ce_a pc) (ce_b pc) = uv_el (pv_uni c) Uc;
    ct_open : p_eval NC (ce_p pc) (uv_el (pv_uni c) Uu) = uv_el (pv_uni c) Uv;
    ct_registry : forall t, p_eval NC (ce_xy pc) t = rv_m rv t (uv_el (pv_uni c) Ux) (uv_el (pv_uni c) Uy);
    ct_checks : many NC (fun y => many NC (fun z =>
      Forall (claim_holds n z (rv_sy rv y)) (own_claims (acc_view c pc i y) ++ bond_claims f0 [acc_view c pc i y]))) }.
End AccSpec.
Arguments run_ok {F}. Arguments forked {F}. Arguments acc_view {F}. Arguments child_true {F}.

(** the polynomials of a proof that its parent opens *)
Definition polys_of {F Fs : Field} {H : FMod F} (p : proof F Fs H) : ceval (poly F) :=
  mk_ceval (fun i => native_rx p (Rx i)) (pf_a p) (pf_b p) (pf_registry_xy p) (pf_p p).
(** a registry, as the argument sees it *)
Definition reg_rv {F : Field} (T : TwoAdic F) (lg : nat) (repr : F -> N) (r : registry F) : regview F :=
  mk_regview (fun w x y => match reg_wxy F lg repr r w x y with Some m => m | None => f0 end)
             (fun y i => match circuit_y F T lg repr r (N.of_nat i) y with Some m => m | None => [] end).
