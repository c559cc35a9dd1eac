(** Specification for the registry: what a circuit object is, and what it means
    for a univariate polynomial to interpolate the circuits. *)
From Coq Require Import List Arith NArith.
From Verif Require Import FieldDef FFTModel SparseModel SparseSpec CircModel RegModel.
Import ListNotations.
Open Scope f_scope.

(** [s] is the bivariate polynomial of the object: its three evaluators, on the
    object's own floor plan, give [s] (and well-formed polynomials) *)
Definition obj_is {F : Field} (lg : nat) (o : cobj F) (s : F -> F -> F) : Prop :=
  let plan := floor_plan (ob_segs F o) in let nc := (4 * 2 ^ lg)%nat in
  forall x y, ob_sxy F o x y plan = Some (s x y) /\
    (exists q, ob_sx F o x plan = Some q /\ wf 0 nc q /\ p_eval nc q y = s x y) /\
    (exists q, ob_sy F o y plan = Some q /\ wf 0 nc q /\ p_eval nc q x = s x y).

(** [P], of fewer than 2^k coefficients, takes value [vs_i] at the identifier of
    index i and zero at the 2^k-th roots of unity that identify no circuit *)
Definition interpolates {F : Field} (T : TwoAdic F) (k : nat) (vs : list F) (P : list F) : Prop :=
  length P = (2 ^ k)%nat /\
  (forall i, (i < length vs)%nat -> peval P (omega_j T (N.of_nat i)) = nth i vs 0) /\
  (forall w, w ^ (2 ^ k) = 1 -> (forall i, (i < length vs)%nat -> w <> omega_j T (N.of_nat i)) -> peval P w = 0).

(** The digest of a trivariate polynomial [m] as a chain of hashes.  [run] lists the
    points evaluated with the values found: each value is appended to the state, the
    hash of that is the next state and yields the next point; the key comes from the
    hash of the last state. *)
Section Digest.
  Context {F : Field}.
  Variable hash : list N -> list N.
  Variable to_bytes : F -> list N.
  Variable from_uniform : list N -> F.
  Definition derive (state : list N) (i : N) : F := from_uniform (hash (state ++ [i])).
  Definition next_state (state : list N) (e : F) : list N := hash (state ++ to_bytes e).
  Definition state_after (es : list F) : list N := fold_left next_state es [].
  (** the i-th entry is a point, and the value of [m] there *)
  Definition digest_run (m : F -> F -> F -> F) (w0 x0 y0 : F) (run : list (F * F * F * F)) : Prop :=
    forall i w x y e, nth_error run i = Some (w, x, y, e) ->
      e = m w x y /\
      let st := state_after (map snd (firstn i run)) in
      (w, x, y) = match i with O => (w0, x0, y0) | S _ => (derive st 0, derive st 1, derive st 2) end.
  Definition digest_key (run : list (F * F * F * F)) : F := derive (hash (state_after (map snd run))) 0.
  (** two different inputs with equal results *)
  Definition hash_collision : Prop := exists a b, a <> b /\ hash a = hash b.
  Definition uniform_collision : Prop := exists a b, hash a <> hash b /\ from_uniform (hash a) = from_uniform (hash b).
End Digest.
