(** Specification of sparse polynomials: the dense coefficient function. *)
From Coq Require Import List Arith Bool.
From Verif Require Import FieldDef SparseModel.
Import ListNotations.

Section Spec.
  Variable F : Field.
  (** coefficient at degree k: the entry of the block covering k, else zero *)
  Fixpoint coeff_at (bs : poly F) (k : nat) : F :=
    match bs with
    | [] => f0
    | (s, d) :: bs' =>
        if (s <=? k) && (k <? s + length d) then nth (k - s) d f0 else coeff_at bs' k
    end.
  (** blocks are non-empty, sorted, non-overlapping and inside [lo, hi) *)
  Fixpoint wf (lo hi : nat) (bs : poly F) : Prop :=
    match bs with
    | [] => True
    | (s, d) :: bs' => lo <= s /\ d <> [] /\ s + length d <= hi /\ wf (s + length d) hi bs'
    end.
  (** dense coefficient vector *)
  Definition dense (NC : nat) (bs : poly F) : list F := map (coeff_at bs) (seq 0 NC).
End Spec.
Arguments coeff_at {F} bs k. Arguments wf {F} lo hi bs. Arguments dense {F} NC bs.

(** a double-ended queue as a plain list: [true] = next, [false] = next_back *)
Definition deque_step {A} (front : bool) (l : list A) : list A * option A :=
  match l with
  | [] => ([], None)
  | x :: l' => if front then (l', Some x) else (removelast l, Some (last l x))
  end.
Fixpoint deque_run {A} (ops : list bool) (l : list A) : list (option A) :=
  match ops with
  | [] => []
  | o :: ops' => let '(l', r) := deque_step o l in r :: deque_run ops' l'
  end.

(** Polynomials reachable through the public interface with [num_coeffs = 4n].
    A constructor applies only when the modelled operation returns (no panic). *)
Section Reach.
  Variables (F : Field) (n : nat).
  Inductive reach : poly F -> Prop :=
  | r_new : reach p_new
  | r_coeffs cs p : from_coeffs (4 * n) cs = Some p -> reach p
  | r_random cs p : p_random (4 * n) cs = Some p -> reach p
  | r_trace a b c d p : trace_build (4 * n) n a b c d = Some p -> reach p
  | r_wiring a b c d p : wiring_build (4 * n) n a b c d = Some p -> reach p
  | r_scale c p : reach p -> reach (p_scale c p)
  | r_negate p : reach p -> reach (p_negate p)
  | r_dilate z p : reach p -> reach (p_dilate z p)
  | r_add p q r : reach p -> reach q -> p_add (4 * n) p q = Some r -> reach r
  | r_sub p q r : reach p -> reach q -> p_sub (4 * n) p q = Some r -> reach r
  | r_fold ps c r : (forall p, In p ps -> reach p) -> p_fold (4 * n) ps c = Some r -> reach r.
End Reach.
Arguments reach {F} n p.
