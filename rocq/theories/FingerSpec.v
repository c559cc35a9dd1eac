(** What a fingerprint is meant to be: the constraints of the routine's own scope as linear
    forms over the places of its wires, weighed by powers of y. *)
From Coq Require Import List Arith.
From Verif Require Import FieldDef ArithModel ArithSpec CircModel CircSpec.
Import ListNotations.

(** a place: the constant wire, or one of the four wires of a gate *)
Inductive slot := SOne | SW (k : kind) (i : nat).
Definition slot_eqb (s t : slot) : bool :=
  match s, t with
  | SOne, SOne => true
  | SW KA i, SW KA j | SW KB i, SW KB j | SW KC i, SW KC j | SW KD i, SW KD j => Nat.eqb i j
  | _, _ => false
  end.

Section Forms.
  Variable F : Field.
  (** the coefficient of every place *)
  Definition form := slot -> F.
  Definition unit_form (t : slot) : form := fun s => if slot_eqb s t then f1 else f0.
  Definition lc_form (env : list form) (lc : list (lcall F wref)) : form :=
    fun s => lin_spec (fun r => lookup (unit_form SOne) env r s) lc.
  (** wires that come from outside the scope take the b and d wires of the next gates *)
  Fixpoint outside (m g : nat) : list form :=
    match m with
    | O => []
    | S O => [unit_form (SW KB g)]
    | S (S m') => unit_form (SW KB g) :: unit_form (SW KD g) :: outside m' (S g)
    end.
  (** the constraints of the scope itself, in order; [g] gates are in use, [av] is a d wire
      left over.  Routines called from here contribute nothing but their outputs. *)
  Fixpoint own_forms (p : prog F) (env : list form) (g : nat) (av : option form) : list form :=
    match p with
    | PEnd => []
    | PGate _ _ _ _ k =>
        own_forms k (env ++ [unit_form (SW KA g); unit_form (SW KB g); unit_form (SW KC g); unit_form (SW KD g)]) (S g) av
    | PMul _ _ _ k => own_forms k (env ++ [unit_form (SW KA g); unit_form (SW KB g); unit_form (SW KC g)]) (S g) av
    | PAlloc _ k =>
        match av with
        | Some w => own_forms k (env ++ [w]) g None
        | None => own_forms k (env ++ [unit_form (SW KB g)]) (S g) (Some (unit_form (SW KD g)))
        end
    | PAdd lc k => own_forms k (env ++ [lc_form env lc]) g av
    | PEnforce lc k => lc_form env lc :: own_forms k env g av
    | PClone w k => own_forms k (env ++ [lookup (unit_form SOne) env w]) g av
    | PDrop _ k => own_forms k env g av
    | PRoutine _ _ _ outs k => own_forms k (env ++ outside (length outs) g) (g + Nat.div2 (S (length outs))) av
    end.
  (** the number of gate places in use at the end *)
  Fixpoint reach (p : prog F) (g : nat) (half : bool) : nat :=
    match p with
    | PEnd => g
    | PGate _ _ _ _ k | PMul _ _ _ k => reach k (S g) half
    | PAlloc _ k => if half then reach k g false else reach k (S g) true
    | PAdd _ k | PEnforce _ k | PClone _ k | PDrop _ k => reach k g half
    | PRoutine _ _ _ outs k => reach k (g + Nat.div2 (S (length outs))) half
    end.
  Definition routine_forms (nin : nat) (body : prog F) : list form := own_forms body (outside nin 0) (Nat.div2 (S nin)) None.
  Definition routine_reach (nin : nat) (body : prog F) : nat := reach body (Nat.div2 (S nin)) false.

  Variables x0 x1 x2 x3 y one h : F.
  (** a form at the places' values: the wires of gate i have the values x_k^(i+1) *)
  Definition form_at (G : nat) (f : form) : F :=
    fadd (fmul (f SOne) one)
      (fsum G (fun i => fadd (fadd (fmul (f (SW KA i)) (fpow x0 (S i))) (fmul (f (SW KB i)) (fpow x1 (S i))))
                             (fadd (fmul (f (SW KC i)) (fpow x2 (S i))) (fmul (f (SW KD i)) (fpow x3 (S i)))))).
  (** the j-th constraint of m has weight y^(m-1-j), the seed y^m *)
  Definition scalar (G : nat) (fs : list form) : F :=
    let m := length fs in
    fadd (fmul h (fpow y m)) (fsum m (fun j => fmul (form_at G (nth j fs (fun _ => f0))) (fpow y (m - 1 - j)))).

  (** the record of a routine, from the number of its inputs and its body alone *)
  Definition routine_id (nin : nat) (body : prog F) : F * nat * nat :=
    (scalar (routine_reach nin body) (routine_forms nin body), fst (scope_size body), snd (scope_size body)).
  Definition routine_record (nin : nat) (body : prog F) : srec F :=
    mk_srec F (fst (scope_size body)) (snd (scope_size body)) (Some (routine_id nin body)).
  (** those of all routines called, in the order of the calls, a routine before the
      routines it calls *)
  Fixpoint records (p : prog F) : list (srec F) :=
    match p with
    | PEnd => []
    | PRoutine _ ins body _ k => routine_record (length ins) body :: records body ++ records k
    | PGate _ _ _ _ k | PMul _ _ _ k | PAlloc _ k | PAdd _ k | PEnforce _ k | PClone _ k | PDrop _ k => records k
    end.
End Forms.
Arguments unit_form {F}. Arguments lc_form {F}. Arguments outside {F}. Arguments own_forms {F}. Arguments reach {F}.
Arguments routine_forms {F}. Arguments routine_reach {F}. Arguments form_at {F}. Arguments scalar {F}.
Arguments routine_id {F}. Arguments routine_record {F}. Arguments records {F}.

(** the same calls, with possibly different witness values, predictions and wires of the callers *)
Inductive same_calls {F : Field} : prog F -> prog F -> Prop :=
| sc_end : same_calls PEnd PEnd
| sc_gate a b c d a' b' c' d' k k' : same_calls k k' -> same_calls (PGate a b c d k) (PGate a' b' c' d' k')
| sc_mul a b c a' b' c' k k' : same_calls k k' -> same_calls (PMul a b c k) (PMul a' b' c' k')
| sc_alloc v v' k k' : same_calls k k' -> same_calls (PAlloc v k) (PAlloc v' k')
| sc_add lc k k' : same_calls k k' -> same_calls (PAdd lc k) (PAdd lc k')
| sc_enforce lc k k' : same_calls k k' -> same_calls (PEnforce lc k) (PEnforce lc k')
| sc_clone w k k' : same_calls k k' -> same_calls (PClone w k) (PClone w k')
| sc_drop i k k' : same_calls k k' -> same_calls (PDrop i k) (PDrop i k')
| sc_routine b b' ins ins' body body' outs outs' k k' : length ins = length ins' -> length outs = length outs' -> same_calls body body' -> same_calls k k' ->
    same_calls (PRoutine b ins body outs k) (PRoutine b' ins' body' outs' k').
