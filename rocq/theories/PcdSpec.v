(** What the claims about a list of proofs are, proof by proof. *)
From Coq Require Import List Arith.
From Verif Require Import FieldDef SparseModel SparseSpec FoldSpec PcdModel.
Import ListNotations.
Local Open Scope nat_scope.

(** the trace polynomials summed for each internal circuit *)
Definition parts (id : icid) : list rxid :=
  match id with
  | Hashes1Circuit => [RxHashes1; RxPreamble; RxOuterError]
  | Hashes2Circuit => [RxHashes2; RxOuterError]
  | InnerCollapseCircuit => [RxInnerCollapse; RxPreamble; RxInnerError; RxOuterError]
  | OuterCollapseCircuit => [RxOuterCollapse; RxPreamble; RxOuterError]
  | ComputeVCircuit => [RxComputeV; RxPreamble; RxQuery; RxEval]
  | _ => []
  end.
(** the trace polynomials bonded by each stage mask *)
Definition bonded (id : icid) : list rxid :=
  match id with
  | PreambleStage => [RxPreamble]
  | InnerErrorStage => [RxInnerError]
  | OuterErrorStage => [RxOuterError]
  | QueryStage => [RxQuery]
  | EvalStage => [RxEval]
  | InnerErrorFinalStaged => [RxInnerCollapse]
  | OuterErrorFinalStaged => [RxHashes1; RxHashes2; RxOuterCollapse]
  | EvalFinalStaged => [RxComputeV]
  | _ => []
  end.
(** the claims about the j-th of several proofs, each with its expected value; a
    proof is given by its polynomials, its circuit and its four values *)
Record pview (R A K : Type) := mk_pview
  { pv_rx : rxcomp -> R; pv_app : A; pv_c : K; pv_kapp : K; pv_kbridge : K; pv_kunified : K }.
Arguments mk_pview {R A K}. Arguments pv_rx {R A K}. Arguments pv_app {R A K}. Arguments pv_c {R A K}.
Arguments pv_kapp {R A K}. Arguments pv_kbridge {R A K}. Arguments pv_kunified {R A K}.
Definition own_claims {R A K : Type} (v : pview R A K) : list (claim R A * K) :=
  let int id k := (CInt id (map (fun i => pv_rx v (Rx i)) (parts id)), k) in
  [ (CRaw (pv_rx v AbA) (pv_rx v AbB), pv_c v);
    (CApp (pv_app v) (pv_rx v (Rx RxApplication)), pv_kapp v);
    int Hashes1Circuit (pv_kbridge v);
    int Hashes2Circuit (pv_kunified v);
    int InnerCollapseCircuit (pv_kunified v);
    int OuterCollapseCircuit (pv_kunified v);
    int ComputeVCircuit (pv_kunified v) ].
(** the bonding claims: the traces of all the proofs, expected value zero *)
Definition bond_claims {R A K : Type} (zero : K) (vs : list (pview R A K)) : list (claim R A * K) :=
  map (fun id => (CBond id (flat_map (fun i => map (fun v => pv_rx v (Rx i)) vs) (bonded id)), zero))
    [PreambleStage; InnerErrorStage; OuterErrorStage; QueryStage; EvalStage;
     InnerErrorFinalStaged; OuterErrorFinalStaged; EvalFinalStaged].
Definition source_of {R A K : Type} (vs : list (pview R A K)) : source rxcomp R A :=
  mk_source (fun c => map (fun v => pv_rx v c) vs) (map pv_app vs).
Definition kysource_of {R A K : Type} (zero : K) (vs : list (pview R A K)) : kysource K :=
  mk_kysource (map pv_c vs) (map pv_kapp vs) (map pv_kbridge vs) (map pv_kunified vs) zero.

(** nested field: the claims of one proof *)
Definition nested_own {R K : Type} (one : K) (steps : nat) (p : nrxid -> R) : list (nclaim R * K) :=
  map (fun s => (NInt (NStep s) [p (NrStep s); p NrEndoscalar; p NrPoints], one)) (seq 0 steps).
Definition nested_bond {R K : Type} (zero : K) (steps : nat) (ps : list (nrxid -> R)) : list (nclaim R * K) :=
  let rx i := map (fun p => p i) ps in
  [ (NBond NEndoscalar (rx NrEndoscalar), zero); (NBond NPoints (rx NrPoints), zero);
    (NBond NPointsFinal (flat_map (fun s => rx (NrStep s)) (seq 0 steps)), zero);
    (NBond NBridgePreamble (rx NrPreamble), zero); (NBond NBridgeSPrime (rx NrSPrime), zero);
    (NBond NBridgeInnerError (rx NrInnerError), zero); (NBond NBridgeOuterError (rx NrOuterError), zero);
    (NBond NBridgeAB (rx NrAB), zero); (NBond NBridgeQuery (rx NrQuery), zero);
    (NBond NBridgeF (rx NrF), zero); (NBond NBridgeEval (rx NrEval), zero) ].

(** ** what the polynomials of a claim are, coefficient by coefficient *)

Section ClaimPolys.
  Variable F : Field.
  Variables (n : nat) (z : F) (sy : nat -> poly F).
  (** coefficient [k] of t(X, z) *)
  Definition t_coeff (k : nat) : F :=
    if andb (3 * n <=? k) (k <? 4 * n)
    then fopp (fadd (fpow z (2 * n - 1 - (4 * n - 1 - k))) (fpow z (2 * n + (4 * n - 1 - k)))) else f0.
  Definition internal_index (id : icid) : nat :=
    match id with
    | Hashes1Circuit => 0 | Hashes2Circuit => 1 | InnerCollapseCircuit => 2 | OuterCollapseCircuit => 3 | ComputeVCircuit => 4
    | PreambleStage => 5 | InnerErrorStage => 6 | OuterErrorStage => 7 | QueryStage => 8 | EvalStage => 9
    | InnerErrorFinalStaged => 10 | OuterErrorFinalStaged => 11 | EvalFinalStaged => 12
    end.
  (** a is the raw a, the trace, the sum of the traces or their z-fold; *)
  Definition a_coeff (c : claim (poly F) nat) (k : nat) : F :=
    match c with
    | CRaw a _ => coeff_at a k
    | CApp _ r => coeff_at r k
    | CInt _ rs => lsum (map (fun r => coeff_at r k) rs)
    | CBond _ rs => hfold (length rs) z (fun i => coeff_at (nth i rs []) k)
    end.
  (** b is the raw b, a(zX) + s(X) + t(X, z), or the mask's s(X) *)
  Definition b_coeff (c : claim (poly F) nat) (k : nat) : F :=
    match c with
    | CRaw _ b => coeff_at b k
    | CApp id _ => fadd (fadd (fmul (a_coeff c k) (fpow z k)) (coeff_at (sy id) k)) (t_coeff k)
    | CInt id _ => fadd (fadd (fmul (a_coeff c k) (fpow z k)) (coeff_at (sy (internal_index id)) k)) (t_coeff k)
    | CBond id _ => coeff_at (sy (internal_index id)) k
    end.
End ClaimPolys.
Arguments t_coeff {F}. Arguments a_coeff {F}. Arguments b_coeff {F}.

(** transporting claims and proofs along functions *)
Definition claim_map {R A R' A' : Type} (fa fb fr : R -> R') (g : A -> A') (c : claim R A) : claim R' A' :=
  match c with
  | CRaw a b => CRaw (fa a) (fb b)
  | CApp id rx => CApp (g id) (fr rx)
  | CInt id rxs => CInt id (map fr rxs)
  | CBond id rxs => CBond id (map fr rxs)
  end.
Definition pview_map {R A R' A' K : Type} (fa fb fr : R -> R') (g : A -> A') (v : pview R A K) : pview R' A' K :=
  mk_pview (fun c => match c with AbA => fa (pv_rx v c) | AbB => fb (pv_rx v c) | Rx _ => fr (pv_rx v c) end)
           (g (pv_app v)) (pv_c v) (pv_kapp v) (pv_kbridge v) (pv_kunified v).
