(** Ordering of revdot claims and of the expected values k(y)
    (crates/ragu_pcd/src/internal/claims.rs, internal/native/claims.rs,
    internal/native/mod.rs, internal/nested/claims.rs, internal/nested/mod.rs) and
    the processors that turn claims into polynomials and into evaluations
    (internal/claims.rs, internal/native/circuits/compute_v.rs).
    Panics are [None]. *)
From Coq Require Import List Arith NArith Bool.
From Verif Require Import FieldDef ArithModel SparseModel TModel ClaimModel GadgetModel FoldModel.
Import ListNotations.
Local Open Scope nat_scope.

(** internal/native/mod.rs:31-47 [InternalCircuitIndex] *)
Inductive icid :=
  | Hashes1Circuit | Hashes2Circuit | InnerCollapseCircuit | OuterCollapseCircuit | ComputeVCircuit
  | PreambleStage | InnerErrorStage | OuterErrorStage | QueryStage | EvalStage
  | InnerErrorFinalStaged | OuterErrorFinalStaged | EvalFinalStaged.
(** internal/native/mod.rs:69-88 [InternalCircuitIndex::ALL] *)
Definition icid_all : list icid :=
  [Hashes1Circuit; Hashes2Circuit; InnerCollapseCircuit; OuterCollapseCircuit; ComputeVCircuit;
   PreambleStage; InnerErrorStage; OuterErrorStage; QueryStage; EvalStage;
   InnerErrorFinalStaged; OuterErrorFinalStaged; EvalFinalStaged].
Definition icid_eqb (a b : icid) : bool :=
  match a, b with
  | Hashes1Circuit, Hashes1Circuit | Hashes2Circuit, Hashes2Circuit
  | InnerCollapseCircuit, InnerCollapseCircuit | OuterCollapseCircuit, OuterCollapseCircuit
  | ComputeVCircuit, ComputeVCircuit | PreambleStage, PreambleStage | InnerErrorStage, InnerErrorStage
  | OuterErrorStage, OuterErrorStage | QueryStage, QueryStage | EvalStage, EvalStage
  | InnerErrorFinalStaged, InnerErrorFinalStaged | OuterErrorFinalStaged, OuterErrorFinalStaged
  | EvalFinalStaged, EvalFinalStaged => true
  | _, _ => false
  end.
(** [iter().position(|&v| v == self)] *)
Fixpoint position {T : Type} (p : T -> bool) (l : list T) : option nat :=
  match l with
  | [] => None
  | x :: r => if p x then Some 0 else option_map S (position p r)
  end.
(** internal/native/mod.rs:91-97 [InternalCircuitIndex::circuit_index]; [None] is the
    [expect] on a variant missing from [ALL] *)
Definition circuit_index (id : icid) : option nat := position (icid_eqb id) icid_all.

(** internal/native/mod.rs:180-222 [RxIndex], [RxIndex::ALL]; 299-306 [RxComponent] *)
Inductive rxid :=
  | RxApplication | RxHashes1 | RxHashes2 | RxInnerCollapse | RxOuterCollapse | RxComputeV
  | RxPreamble | RxInnerError | RxOuterError | RxQuery | RxEval.
Definition rxid_all : list rxid :=
  [RxApplication; RxHashes1; RxHashes2; RxInnerCollapse; RxOuterCollapse; RxComputeV;
   RxPreamble; RxInnerError; RxOuterError; RxQuery; RxEval].
Inductive rxcomp := AbA | AbB | Rx (i : rxid).

(** internal/claims.rs:33-56 [Source]: the iterators are lists *)
Record source (C R A : Type) := mk_source { s_rx : C -> list R; s_app : list A }.
Arguments mk_source {C R A}. Arguments s_rx {C R A}. Arguments s_app {C R A}.

(** internal/native/claims.rs:60-77 [Processor]: a claim is one call of a method *)
Inductive claim (R A : Type) :=
  | CRaw (a b : R)
  | CApp (id : A) (rx : R)
  | CInt (id : icid) (rxs : list R)
  | CBond (id : icid) (rxs : list R).
Arguments CRaw {R A}. Arguments CApp {R A}. Arguments CInt {R A}. Arguments CBond {R A}.

Section Native.
  Context {R A : Type}.
  Variable src : source rxcomp R A.
  Local Notation rx := (s_rx src).
  (** internal/native/claims.rs:121-232 [build]: the calls in order; the early
      return on an error of [bonding] is in the processors *)
  Definition build_claims : list (claim R A) :=
    map (fun ab => CRaw (fst ab) (snd ab)) (combine (rx AbA) (rx AbB)) ++
    map (fun ir => CApp (fst ir) (snd ir)) (combine (s_app src) (rx (Rx RxApplication))) ++
    flat_map (fun id =>
      match id with
      | Hashes1Circuit =>
          map (fun t => let '((h1, pre), en) := t in CInt id [h1; pre; en])
              (combine (combine (rx (Rx RxHashes1)) (rx (Rx RxPreamble))) (rx (Rx RxOuterError)))
      | Hashes2Circuit =>
          map (fun t => let '(h2, en) := t in CInt id [h2; en])
              (combine (rx (Rx RxHashes2)) (rx (Rx RxOuterError)))
      | InnerCollapseCircuit =>
          map (fun t => let '(((pc, pre), em), en) := t in CInt id [pc; pre; em; en])
              (combine (combine (combine (rx (Rx RxInnerCollapse)) (rx (Rx RxPreamble))) (rx (Rx RxInnerError)))
                       (rx (Rx RxOuterError)))
      | OuterCollapseCircuit =>
          map (fun t => let '((fc, pre), en) := t in CInt id [fc; pre; en])
              (combine (combine (rx (Rx RxOuterCollapse)) (rx (Rx RxPreamble))) (rx (Rx RxOuterError)))
      | ComputeVCircuit =>
          map (fun t => let '(((cv, pre), q), e) := t in CInt id [cv; pre; q; e])
              (combine (combine (combine (rx (Rx RxComputeV)) (rx (Rx RxPreamble))) (rx (Rx RxQuery)))
                       (rx (Rx RxEval)))
      | PreambleStage => [CBond id (rx (Rx RxPreamble))]
      | InnerErrorStage => [CBond id (rx (Rx RxInnerError))]
      | OuterErrorStage => [CBond id (rx (Rx RxOuterError))]
      | QueryStage => [CBond id (rx (Rx RxQuery))]
      | EvalStage => [CBond id (rx (Rx RxEval))]
      | InnerErrorFinalStaged => [CBond id (rx (Rx RxInnerCollapse))]
      | OuterErrorFinalStaged =>
          [CBond id (rx (Rx RxHashes1) ++ rx (Rx RxHashes2) ++ rx (Rx RxOuterCollapse))]
      | EvalFinalStaged => [CBond id (rx (Rx RxComputeV))]
      end) icid_all.
End Native.

(** internal/native/claims.rs:42 *)
Definition NUM_UNIFIED_CIRCUITS : nat := 4.
(** internal/native/claims.rs:236-256 [KySource] *)
Record kysource (K : Type) := mk_kysource
  { k_raw : list K; k_app : list K; k_bridge : list K; k_unified : list K; k_zero : K }.
Arguments mk_kysource {K}. Arguments k_raw {K}. Arguments k_app {K}. Arguments k_bridge {K}.
Arguments k_unified {K}. Arguments k_zero {K}.
(** internal/native/claims.rs:267-274 [ky_values]: the infinite iterator is the
    function giving its i-th item *)
Definition ky_values {K : Type} (s : kysource K) (i : nat) : K :=
  nth i (k_raw s ++ k_app s ++ k_bridge s ++ concat (repeat (k_unified s) NUM_UNIFIED_CIRCUITS)) (k_zero s).
(** [ky_values(..).zip(claims)] *)
Definition zip_ky {K T : Type} (ky : nat -> K) (l : list T) : list (T * K) :=
  combine l (map ky (seq 0 (length l))).

(** internal/native/claims.rs:277-334 [TwoProofKySource] and verify.rs:169-198
    [SingleProofKySource] *)
Record child_ky (K : Type) := mk_child_ky { ck_application : K; ck_unified : K; ck_bridge : K }.
Arguments mk_child_ky {K}. Arguments ck_application {K}. Arguments ck_unified {K}. Arguments ck_bridge {K}.
Definition two_ky {K : Type} (zero lc rc : K) (l r : child_ky K) : kysource K :=
  mk_kysource [lc; rc] [ck_application l; ck_application r] [ck_bridge l; ck_bridge r]
              [ck_unified l; ck_unified r] zero.
Definition one_ky {K : Type} (zero c : K) (l : child_ky K) : kysource K :=
  mk_kysource [c] [ck_application l] [ck_bridge l] [ck_unified l] zero.
(** verify.rs:150-166 [SingleProofSource]; compute_v.rs:347-375 [EvaluationSource]
    and fuse/claims.rs:157-204 [FuseProofSource] *)
Definition one_source {C R A : Type} (p : C -> R) (id : A) : source C R A := mk_source (fun c => [p c]) [id].
Definition two_source {C R A : Type} (l r : C -> R) (idl idr : A) : source C R A :=
  mk_source (fun c => [l c; r c]) [idl; idr].

(** internal/nested/mod.rs:36-62 [InternalCircuitIndex], 74-100 [ALL], 120-143 [RxIndex] *)
Inductive ncid :=
  | NStep (step : nat) | NEndoscalar | NPoints | NPointsFinal
  | NBridgePreamble | NBridgeSPrime | NBridgeInnerError | NBridgeOuterError
  | NBridgeAB | NBridgeQuery | NBridgeF | NBridgeEval.
Inductive nrxid :=
  | NrStep (step : nat) | NrEndoscalar | NrPoints
  | NrPreamble | NrSPrime | NrInnerError | NrOuterError | NrAB | NrQuery | NrF | NrEval.
Definition ncid_all (steps : nat) : list ncid :=
  map NStep (seq 0 steps) ++
  [NEndoscalar; NPoints; NPointsFinal; NBridgePreamble; NBridgeSPrime; NBridgeInnerError; NBridgeOuterError;
   NBridgeAB; NBridgeQuery; NBridgeF; NBridgeEval].
(** internal/nested/claims.rs:22-31 [Processor] *)
Inductive nclaim (R : Type) := NInt (id : ncid) (rxs : list R) | NBond (id : ncid) (rxs : list R).
Arguments NInt {R}. Arguments NBond {R}.
(** internal/nested/claims.rs:68-122 [build] *)
Definition build_nested {R A : Type} (steps : nat) (src : source nrxid R A) : list (nclaim R) :=
  flat_map (fun id =>
    match id with
    | NStep step =>
        map (fun t => let '((s, e), p) := t in NInt id [s; e; p])
            (combine (combine (s_rx src (NrStep step)) (s_rx src NrEndoscalar)) (s_rx src NrPoints))
    | NEndoscalar => [NBond id (s_rx src NrEndoscalar)]
    | NPoints => [NBond id (s_rx src NrPoints)]
    | NPointsFinal => [NBond id (flat_map (fun step => s_rx src (NrStep step)) (seq 0 steps))]
    | NBridgePreamble => [NBond id (s_rx src NrPreamble)]
    | NBridgeSPrime => [NBond id (s_rx src NrSPrime)]
    | NBridgeInnerError => [NBond id (s_rx src NrInnerError)]
    | NBridgeOuterError => [NBond id (s_rx src NrOuterError)]
    | NBridgeAB => [NBond id (s_rx src NrAB)]
    | NBridgeQuery => [NBond id (s_rx src NrQuery)]
    | NBridgeF => [NBond id (s_rx src NrF)]
    | NBridgeEval => [NBond id (s_rx src NrEval)]
    end) (ncid_all steps).
(** internal/nested/claims.rs:142-150 [ky_values] *)
Definition nested_ky {K : Type} (steps : nat) (one zero : K) (i : nat) : K := nth i (repeat one steps) zero.

Section Process.
  Variable F : Field.
  Local Notation poly := (list (nat * list F)).

  (** internal/claims.rs:64-113 [Builder] with the processor of
      internal/native/claims.rs:78-110; [cy] is [registry.circuit_y(.., y)] *)
  Section Builder.
    Variables (n NC : nat) (z : F) (cy : nat -> option poly).
    Definition b_circuit (id : nat) (a : poly) : option (poly * poly) :=
      match cy id with
      | None => None
      | Some sy => option_map (pair a) (circuit_claim_b n NC z a sy)
      end.
    Definition b_bond (id : nat) (a : poly) : option (poly * poly) :=
      option_map (fun sy => (a, bonding_claim_b sy)) (cy id).
    Definition b_claim (c : claim poly nat) : option (poly * poly) :=
      match c with
      | CRaw a b => Some (a, b)
      | CApp id rx => b_circuit id rx
      | CInt id rxs =>
          match circuit_index id, sum_polynomials NC rxs with
          | Some i, Some rx => b_circuit i rx
          | _, _ => None
          end
      | CBond id rxs =>
          match circuit_index id, fold_bonding_polys NC z rxs with
          | Some i, Some a => b_bond i a
          | _, _ => None
          end
      end.
    Definition b_build (src : source rxcomp poly nat) : option (list (poly * poly)) :=
      opt_all b_claim (build_claims src).

    (** fuse/claims.rs:217-260: the same builder with a tracked [a] *)
    Context {K : Type}.
    Definition fb_claim (c : claim (K * poly) nat) : option (tracked F K * poly) :=
      match c with
      | CRaw a b => Some (t_single (snd a) (fst a), snd b)
      | CApp id rx => option_map (fun ab => (t_single (snd rx) (fst rx), snd ab)) (b_circuit id (snd rx))
      | CInt id rxs =>
          match circuit_index id, t_sum NC rxs with
          | Some i, Some t => option_map (fun ab => (t, snd ab)) (b_circuit i (fst t))
          | _, _ => None
          end
      | CBond id rxs =>
          match circuit_index id, t_bond NC rxs z with
          | Some i, Some t => option_map (fun ab => (t, snd ab)) (b_bond i (fst t))
          | _, _ => None
          end
      end.
    Definition fb_build (src : source rxcomp (K * poly) nat) : option (list (tracked F K * poly)) :=
      opt_all fb_claim (build_claims src).
  End Builder.

  (** compute_v.rs:389-470 [EvaluationProcessor] *)
  Section Eval.
    Variable W : Type.
    Variable one : W.
    Local Notation G := (G F W).
    Local Notation elem := (elem F W).
    Variables (wit : bool) (z txz : elem) (fixed_registry : icid -> elem).
    Definition ev_claim (c : claim elem elem) : G (elem * elem) :=
      match c with
      | CRaw a b => GRet (a, b)
      | CApp sy rx => t <- e_add F W rx sy ;; b <- e_add F W t txz ;; GRet (rx, b)
      | CInt id rxs =>
          s <- e_sum F W one wit rxs ;;
          t <- e_add F W s (fixed_registry id) ;; b <- e_add F W t txz ;; GRet (s, b)
      | CBond id rxs => a <- e_fold F W one wit rxs z ;; GRet (a, fixed_registry id)
      end.
    Fixpoint ev_claims (cs : list (claim elem elem)) : G (list (elem * elem)) :=
      match cs with
      | [] => GRet []
      | c :: r => x <- ev_claim c ;; l <- ev_claims r ;; GRet (x :: l)
      end.
    (** compute_v.rs:503-532 [compute_axbx]; M = GroupSize, N = NumGroups *)
    Definition compute_axbx (M N : nat) (src : source rxcomp elem elem) (mu_inv mu_prime_inv munu mu_prime_nu_prime : elem)
      : G (elem * elem) :=
      l <- ev_claims (build_claims src) ;;
      ax <- fold_two_layer one wit M N (map fst l) mu_inv mu_prime_inv ;;
      bx <- fold_two_layer one wit M N (map snd l) munu mu_prime_nu_prime ;;
      GRet (ax, bx).
  End Eval.
End Process.
Arguments b_claim {F}. Arguments b_build {F}. Arguments fb_claim {F} _ _ _ _ {K}. Arguments fb_build {F} _ _ _ _ {K}.
Arguments b_circuit {F}. Arguments b_bond {F}.
Arguments ev_claim {F W}. Arguments ev_claims {F W}. Arguments compute_axbx {F W}.
