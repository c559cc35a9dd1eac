(** Meaning of gadget programs: which results the emitted constraints allow, and
    which events an execution emits. *)
From Coq Require Import List Arith NArith Bool.
From Verif Require Import FieldDef ArithModel ArithSpec GadgetModel.
Import ListNotations.

(** [holds p r]: some assignment of all allocated and gate wires satisfies every
    gate equation (a b = c, c d = 0) and every linear constraint of [p], and gives
    the result [r].  Witness closures are ignored: the prover may put anything. *)
Fixpoint holds {F : Field} {A : Type} (p : G F F A) (r : A) : Prop :=
  match p with
  | GRet a => a = r
  | GErr => False
  | GGate _ k => exists a b c d, fmul a b = c /\ fmul c d = f0 /\ holds (k a b c d) r
  | GAlloc _ k => exists v, holds (k v) r
  | GAdd lc k => holds (k (lin_spec (fun w => w) lc)) r
  | GEnf lc k => lin_spec (fun w => w) lc = f0 /\ holds k r
  end.

(** the events emitted by an execution with witness values, nothing checked *)
Inductive event (F : Field) := EvGate (a b c d : F) | EvAlloc | EvLin (v : F).
Arguments EvGate {F}. Arguments EvAlloc {F}. Arguments EvLin {F}.
Fixpoint emits {F : Field} {A : Type} (p : G F F A) : option (A * list (event F)) :=
  match p with
  | GRet a => Some (a, [])
  | GErr => None
  | GGate None _ => None
  | GGate (Some (a, b, c, d)) k => option_map (fun r => (fst r, EvGate a b c d :: snd r)) (emits (k a b c d))
  | GAlloc None _ => None
  | GAlloc (Some v) k => option_map (fun r => (fst r, EvAlloc :: snd r)) (emits (k v))
  | GAdd lc k => emits (k (lin_spec (fun w => w) lc))
  | GEnf lc k => option_map (fun r => (fst r, EvLin (lin_spec (fun w => w) lc) :: snd r)) (emits k)
  end.
Definition ev_ok {F : Field} (e : event F) : Prop :=
  match e with EvGate a b c d => fmul a b = c /\ fmul c d = f0 | EvAlloc => True | EvLin v => v = f0 end.
Definition is_gate {F : Field} (e : event F) : bool := match e with EvGate _ _ _ _ => true | _ => false end.
Definition is_alloc {F : Field} (e : event F) : bool := match e with EvAlloc => true | _ => false end.
Definition is_lin {F : Field} (e : event F) : bool := match e with EvLin _ => true | _ => false end.

(** without witness data only wires matter; with it, an honest element's value
    is its wire's value *)
Definition wir {F : Field} (a : F) : elem F F := mk_elem F F a None.
Definition hon {F : Field} (a : F) : elem F F := mk_elem F F a (Some a).
Definition bwir {F : Field} (a : F) : bool_g F := mk_bool F a None.
Definition bhon {F : Field} (b : bool) : bool_g F := mk_bool F (fe F b) (Some b).
Definition pwir {F : Field} (p : F * F) : point F F := mk_point F F (wir (fst p)) (wir (snd p)).
Definition phon {F : Field} (p : F * F) : point F F := mk_point F F (hon (fst p)) (hon (snd p)).
(** counters after [a] allocations, [g] gates and [c] constraints *)
Definition bump (s : simst) (a g c : nat) : simst :=
  mk_simst (num_allocations s + a) (num_gates s + g) (num_constraints s + c).
