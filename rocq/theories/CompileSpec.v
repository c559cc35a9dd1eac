(** Programs up to witness values, and what it means for circuit code to be
    generic in its driver. *)
From Coq Require Import List Arith NArith Bool.
From Verif Require Import FieldDef ArithModel GadgetModel CircModel SparseModel SparseSpec CircSpec StageSpec CompileModel ParSpec.
Import ListNotations.

(** forget the witness values of the driver calls *)
Fixpoint strip {F : Field} (p : prog F) : prog F :=
  match p with
  | PEnd => PEnd
  | PGate _ _ _ _ k => PGate f0 f0 f0 f0 (strip k)
  | PMul _ _ _ k => PMul f0 f0 f0 (strip k)
  | PAlloc _ k => PAlloc f0 (strip k)
  | PAdd lc k => PAdd lc (strip k)
  | PEnforce lc k => PEnforce lc (strip k)
  | PClone w k => PClone w (strip k)
  | PDrop i k => PDrop i (strip k)
  | PRoutine b i body o k => PRoutine b i (strip body) o (strip k)
  end.
(** [p] is a prefix of [q] *)
Inductive prefix {F : Field} : prog F -> prog F -> Prop :=
| px_end q : prefix PEnd q
| px_gate a b c d p q : prefix p q -> prefix (PGate a b c d p) (PGate a b c d q)
| px_alloc v p q : prefix p q -> prefix (PAlloc v p) (PAlloc v q)
| px_add lc p q : prefix p q -> prefix (PAdd lc p) (PAdd lc q)
| px_enf lc p q : prefix p q -> prefix (PEnforce lc p) (PEnforce lc q).

(** [p] run without witness data and [q] run with it build one circuit: the calls
    of [q] are, up to witness values, calls of [p]; if [q] does not stop with an
    error they are all of them, and the output wires are the same. *)
Definition same_circuit {F : Field} {A : Type} (outs : A -> list (elem F wref)) (p q : G F wref A) : Prop :=
  forall n, prefix (strip (fst (compile q n))) (fst (compile p n)) /\
    forall a, snd (compile q n) = Some a ->
      strip (fst (compile q n)) = fst (compile p n) /\
      exists a', snd (compile p n) = Some a' /\ map (ew F wref) (outs a') = map (ew F wref) (outs a).

(** on any two drivers whose wires are related the code makes the same calls on
    related wires *)
Definition generic {F : Field} (p : circuit F) : Prop :=
  forall (W1 W2 : Type) (o1 : W1) (o2 : W2) (RW : W1 -> W2 -> Prop), RW o1 o2 ->
    grel RW true (Forall2 (erel RW true)) (p W1 o1) (p W2 o2).

(** the wires of a trace polynomial: those of gate i, i < n, are the coefficients
    at 2n+i (a), 2n-1-i (b), i (c) and 4n-1-i (d) *)
Definition poly_wires {F : Field} (n : nat) (r : list (nat * list F)) (k : kind) (i : nat) : F :=
  coeff_at r (match k with KA => 2 * n + i | KB => 2 * n - 1 - i | KC => i | KD => 4 * n - 1 - i end).
(** the values of stage i, read from wire values: [stages] lists for each stage
    its [values()] and its number of wires *)
Definition stage_values {F : Field} (v : kind -> nat -> F) (stages : list (nat * nat)) (i : nat) : list F :=
  map (stage_wire v (stage_start (map fst stages) i)) (seq 0 (snd (nth i stages (0, 0)))).

Definition generic_staged {F : Field} (k : staged F) : Prop :=
  forall (W1 W2 : Type) (o1 : W1) (o2 : W2) (RW : W1 -> W2 -> Prop) gs1 gs2, RW o1 o2 -> Forall2 (Forall2 RW) gs1 gs2 ->
    grel RW true (Forall2 (erel RW true)) (k W1 o1 gs1) (k W2 o2 gs2).
