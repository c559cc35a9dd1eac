(** What the polynomials of the other curve carry. *)
From Coq Require Import List Arith NArith Bool.
From Verif Require Import FieldDef ModDef ArithModel SparseModel SparseSpec StageSpec GadgetModel GadgetSpec EscModel CircModel CompileSpec PcdModel PcdSpec RecModel VerifyModel VerifySpec.
Import ListNotations.
Local Open Scope nat_scope.

Section NestedSpec.
  Context {F : Field}.
  (** points as a list of coordinates *)
  Definition coords (ps : list (F * F)) : list F := flat_map (fun p => [fst p; snd p]) ps.
  (** wires of the endoscalar's bits, the initial point, the inputs and the interstitials *)
  Record esc_wires := mk_wires { wi_bits : list F; wi_initial : F * F; wi_inputs : list (F * F); wi_ints : list (F * F) }.
  Definition wires_sized (nbits i k : nat) (w : esc_wires) : Prop :=
    length (wi_bits w) = nbits /\ length (wi_inputs w) = i /\ length (wi_ints w) = k.
  (** the two stage polynomials carry them: two wires per gate, the points behind the bits *)
  Definition esc_carried (n nbits pts : nat) (re rp : poly F) (w : esc_wires) : Prop :=
    let stages := [(nbits, nbits); (pts, pts)] in
    stage_values (poly_wires n re) stages 0 = wi_bits w /\
    stage_values (poly_wires n rp) stages 1 = coords (wi_initial w :: wi_inputs w ++ wi_ints w).
  (** the wires meet the relations of step [s] *)
  Definition esc_holds (zeta : F) (np : nat) (w : esc_wires) (s : nat) : Prop :=
    holds (esc_step F F f1 zeta false np s (mk_endo F (wi_bits w) None) (pwir (wi_initial w)) (map pwir (wi_inputs w)) (map pwir (wi_ints w))) tt.
  (** only gates of stage [i] of the chain, and gate 0, are used *)
  Definition confined (n : nat) (vals : list nat) (i : nat) (r : poly F) : Prop :=
    forall e, e < 4 * n -> coeff_at r e <> f0 -> gate_of n e = 0 \/ in_stage vals i (gate_of n e).
  (** only gates behind the stages of the chain, and gate 0, are used *)
  Definition behind (n : nat) (vals : list nat) (r : poly F) : Prop :=
    forall e, e < 4 * n -> coeff_at r e <> f0 -> gate_of n e = 0 \/ stage_start vals (length vals) <= gate_of n e.
End NestedSpec.
Arguments esc_wires : clear implicits. Arguments mk_wires {F}.

(** the bridge stages in order, by the number of points each holds *)
Definition bridge_values : list nat := map (Nat.mul 2) [13; 2; 2; 1; 2; 2; 1; 1].
Definition bridges : list nrxid := [NrPreamble; NrSPrime; NrInnerError; NrOuterError; NrAB; NrQuery; NrF; NrEval].

(** what the polynomials of the other curve establish *)
Definition nested_proved {F : Field} (zeta : F) (n nbits np i k pts : nat) (rp : nrxid -> poly F) (w : esc_wires F) : Prop :=
  wires_sized nbits i k w /\ esc_carried n nbits pts (rp NrEndoscalar) (rp NrPoints) w /\
  (forall s, s < k -> esc_holds zeta np w s /\ behind n [nbits; pts] (rp (NrStep s))) /\
  confined n [nbits; pts] 0 (rp NrEndoscalar) /\ confined n [nbits; pts] 1 (rp NrPoints) /\
  Forall2 (fun j c => confined n bridge_values j (rp c)) (seq 0 8) bridges.
(** the nested claims hold at 4n values of y, for each of them at 4n values of z *)
Definition nested_accepted {F : Field} (n k : nat) (circuit_y' : nat -> F -> option (poly F)) (rp : nrxid -> poly F) (ys : list F) : Prop :=
  NoDup ys /\ 4 * n <= length ys /\
  forall y, In y ys -> exists zs, NoDup zs /\ 4 * n <= length zs /\
    forall z, In z zs -> exists sy, (forall i, i < k + 11 -> circuit_y' i y = Some (sy i)) /\
      Forall (nclaim_holds n k z sy) (nested_own f1 k rp ++ nested_bond f0 k [rp]).
(** they hold at every y and z *)
Definition nested_passes {F : Field} (n k : nat) (circuit_y' : nat -> F -> option (poly F)) (rp : nrxid -> poly F) : Prop :=
  forall y z, exists sy, (forall i, i < k + 11 -> circuit_y' i y = Some (sy i)) /\
    Forall (nclaim_holds n k z sy) (nested_own f1 k rp ++ nested_bond f0 k [rp]).
(** a proof with its nested polynomials replaced *)
Definition with_nested {F Fs : Field} {H : FMod F} (p : proof F Fs H) (k : nat) (rp : nrxid -> poly Fs) : proof F Fs H :=
  let bridge f := mk_bridge (rp match f with PPreamble => NrPreamble | PSPrime => NrSPrime | PInnerError => NrInnerError | POuterError => NrOuterError
                                | PAB => NrAB | PQuery => NrQuery | PF => NrF | PEval => NrEval end) (br_commitment (pf_bridge p f)) in
  mk_proof (pf_circuit_id p) (pf_left_header p) (pf_right_header p) (pf_application p)
    (pf_preamble p) (pf_inner_error p) (pf_outer_error p) (pf_query p) (pf_eval p)
    (pf_hashes_1 p) (pf_hashes_2 p) (pf_inner_collapse p) (pf_outer_collapse p) (pf_compute_v p)
    (pf_a p) (pf_b p) (pf_c p) (pf_registry_xy p) (pf_p p) (pf_p_commitment p) (pf_v p)
    (map (fun s => rp (NrStep s)) (seq 0 k)) (rp NrEndoscalar) (rp NrPoints) bridge (pf_chal p).
