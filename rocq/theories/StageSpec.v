(** Specification for stages, masks and bonding circuits. *)
From Coq Require Import List Arith Bool.
From Verif Require Import FieldDef ArithModel SparseModel SparseSpec CircModel CircSpec.
Import ListNotations.

(** the gate to which exponent k of a trace (or wiring) polynomial belongs:
    c, b, a, d wires of gate j are at j, 2n-1-j, 2n+j, 4n-1-j *)
Definition gate_of (n k : nat) : nat :=
  if k <? n then k else if k <? 2 * n then 2 * n - 1 - k else if k <? 3 * n then k - 2 * n else 4 * n - 1 - k.
(** the gates a mask leaves alone: the SYSTEM gate and [skip .. skip+num) *)
Definition active (skip num j : nat) : bool := (j =? 0) || ((skip <=? j) && (j <? skip + num)).
(** the mask polynomial, a polynomial in t = xy: every exponent of a constrained gate once *)
Definition mask_poly {F : Field} (n skip num : nat) (t : F) : F :=
  fsum (4 * n) (fun k => if active skip num (gate_of n k) then f0 else fpow t k).

(** first gate of stage i of a chain with the given [values()], base first: the
    SYSTEM gate, then two values per gate *)
Definition stage_start (vals : list nat) (i : nat) : nat :=
  1 + list_sum (map (fun v => (v + 1) / 2) (firstn i vals)).
Definition in_stage (vals : list nat) (i g : nat) : Prop :=
  exists v, nth_error vals i = Some v /\ stage_start vals i <= g < stage_start vals i + (v + 1) / 2.

(** the values of a chain of stages in allocation order, each padded to a whole
    number of gates *)
Definition padded {F : Field} (values : nat) (out : list F) : list F :=
  out ++ repeat f0 (2 * ((values + 1) / 2) - length out).

(** value j of a stage whose first gate is [start]: the b wire of a gate, then
    its d wire *)
Definition stage_wire {F : Field} (val : kind -> nat -> F) (start j : nat) : F :=
  val (if Nat.even j then KB else KD) (start + j / 2).

(** bonding circuits: no gates anywhere, and ONE (also through clones and
    routine inputs or outputs) in no linear combination.  [ones] says which
    environment entries are ONE. *)
Definition one_ref (ones : list bool) (r : wref) : bool :=
  match r with WOne => true | WVar i => nth i ones true end.
Definition lc_refs {F : Field} (lc : list (lcall F wref)) : list wref :=
  flat_map (fun op => match op with
                      | LTerm w _ | LAdd w | LSub w => [w]
                      | LGain _ => []
                      | LExtend ts => map fst ts
                      end) lc.
Inductive gate_free {F : Field} : list bool -> prog F -> list bool -> Prop :=
| gf_end ones : gate_free ones PEnd ones
| gf_alloc ones v k o : gate_free (ones ++ [false]) k o -> gate_free ones (PAlloc v k) o
| gf_add ones lc k o : Forall (fun r => one_ref ones r = false) (lc_refs lc) ->
    gate_free (ones ++ [false]) k o -> gate_free ones (PAdd lc k) o
| gf_enforce ones lc k o : Forall (fun r => one_ref ones r = false) (lc_refs lc) ->
    gate_free ones k o -> gate_free ones (PEnforce lc k) o
| gf_clone ones w k o : gate_free (ones ++ [one_ref ones w]) k o -> gate_free ones (PClone w k) o
| gf_drop ones i k o : gate_free ones k o -> gate_free ones (PDrop i k) o
| gf_routine ones kn ins body outs k o o' :
    gate_free (map (one_ref ones) ins) body o' ->
    gate_free (ones ++ map (one_ref o') outs) k o -> gate_free ones (PRoutine kn ins body outs k) o.

(** the circuit never names the SYSTEM gate's wires (entries 0..3 of the root
    environment): the [Circuit] trait hides them *)
Definition ref_above (r : wref) : bool := match r with WOne => true | WVar i => 4 <=? i end.
Fixpoint hides_system {F : Field} (p : prog F) : bool :=
  match p with
  | PEnd => true
  | PAdd lc k | PEnforce lc k => forallb ref_above (lc_refs lc) && hides_system k
  | PClone w k => ref_above w && hides_system k
  | PRoutine _ ins _ _ k => forallb ref_above ins && hides_system k
  | PGate _ _ _ _ k | PMul _ _ _ k | PAlloc _ k | PDrop _ k => hides_system k
  end.
