(** From gadget code to the driver calls of one run.

    A circuit is Rust code generic in its driver (crates/ragu_core/src/drivers.rs:
    214-346).  CircModel.v takes the driver calls of a run as data; here they are
    obtained from the code: [compile] runs a gadget program on a driver whose
    wires are positions in the environment, the way every driver of
    crates/ragu_circuits numbers them.  [n] wires exist already (for a circuit
    body: the four SYSTEM wires, raw.rs:184-215).  The second component is what
    the code returns, [None] if it stops with an error.  Routine calls are
    inlined (see GadgetModel.v), so the result has one scope. *)
From Coq Require Import List Arith NArith Bool.
From Verif Require Import FieldDef ArithModel FFTModel GadgetModel CircModel StageModel.
Import ListNotations.

Fixpoint compile {F : Field} {A : Type} (p : G F wref A) (n : nat) : prog F * option A :=
  match p with
  | GRet a => (PEnd, Some a)
  | GErr => (PEnd, None)
  (** drivers.rs:144-160; a driver without witness data never runs the closure *)
  | GGate w k =>
      let '(a, b, c, d) := match w with Some t => t | None => (f0, f0, f0, f0) end in
      let r := compile (k (WVar n) (WVar (S n)) (WVar (S (S n))) (WVar (S (S (S n))))) (S (S (S (S n)))) in
      (PGate a b c d (fst r), snd r)
  (** drivers.rs:244-247, overridden by the pairing drivers (CircModel.v) *)
  | GAlloc w k =>
      let r := compile (k (WVar n)) (S n) in
      (PAlloc (match w with Some v => v | None => f0 end) (fst r), snd r)
  | GAdd lc k => let r := compile (k (WVar n)) (S n) in (PAdd lc (fst r), snd r)
  | GEnf lc k => let r := compile k n in (PEnforce lc (fst r), snd r)
  end.

(** circuit code: generic in the driver's wires, given the ONE wire, it returns
    the elements its output writes (ragu_circuits/src/lib.rs:115-157 [Circuit],
    with the witness data fixed or absent) *)
Definition circuit (F : Field) : Type := forall W : Type, W -> G F W (list (elem F W)).
(** the registered circuit: the calls of its body after the SYSTEM gate, and the
    wires of its output (raw.rs:184-215) *)
Definition cbody {F : Field} (p : circuit F) : prog F := fst (compile (p wref WOne) 4).
Definition couts {F : Field} (p : circuit F) : option (list wref) :=
  option_map (map (ew F wref)) (snd (compile (p wref WOne) 4)).

(** ** multi-stage circuits *)
(** code of a [MultiStageCircuit] (staging/mod.rs:202-261): it is given the wires
    of its stages, base stage first, each in the order of the stage's gadget *)
Definition staged (F : Field) : Type := forall W : Type, W -> list (list W) -> G F W (list (elem F W)).
(** the number of wires after the stages have been configured (builder.rs:180-222) *)
Fixpoint stages_end (envlen : nat) (stages : list (nat * nat)) : nat :=
  match stages with
  | [] => envlen
  | (values, num_wires) :: rest =>
      stages_end (envlen + (num_wires + pad_loop (2 * stage_gates values) num_wires (stage_gates values))) rest
  end.
(** staging/mod.rs:294-322, [MultiStage] as a [Circuit]: the builder allocates
    every stage on the driver, then the code runs; a pair of a stage is its
    [values()] and the number of wires of its gadget.  [None] if a stage is
    refused or the code stops with an error. *)
Definition sprog {F : Field} (stages : list (nat * nat)) (k : staged F) : option (prog F * list wref) :=
  match add_stages (F := F) 4 stages PEnd with
  | None => None
  | Some (guards, _) =>
      let c := compile (k wref WOne guards) (stages_end 4 stages) in
      match snd c, add_stages 4 stages (fst c) with
      | Some res, Some (_, body) => Some (body, map (ew F wref) res)
      | _, _ => None
      end
  end.
