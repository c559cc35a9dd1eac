(** The circuits the crates' tests and benchmarks use
    (crates/ragu_testing/src/circuits/mod.rs) and their registry builder
    (crates/ragu_testing/src/registry.rs). *)
From Coq Require Import List Arith NArith Bool.
From Verif Require Import FieldDef ArithModel SparseModel GadgetModel RegModel CompileModel.
Import ListNotations.
Open Scope g_scope.

Section Code.
  Variables (F : Field) (W : Type).
  Notation elem := (elem F W).
  Notation G := (G F W).
  (** circuits/mod.rs:28-38 [MySimpleCircuit::instance]; the elements of the output pair *)
  Definition simple_instance (inst : option (F * F)) : G (list elem) :=
    c <- e_alloc F W (lift1 fst inst) ;;
    d <- e_alloc F W (lift1 snd inst) ;;
    GRet [c; d].
  (** circuits/mod.rs:40-61 [MySimpleCircuit::witness] *)
  Definition simple_witness (w : option (F * F)) : G (list elem) :=
    a <- e_alloc F W (lift1 fst w) ;;
    b <- e_alloc F W (lift1 snd w) ;;
    a2 <- e_square F W a ;;
    a4 <- e_square F W a2 ;;
    a5 <- e_mul F W a4 a ;;
    b2 <- e_square F W b ;;
    g_enforce F W [LAdd (ew F W a5); LSub (ew F W b2)] ;;;
    c <- e_add F W a b ;;
    d <- e_sub F W a b ;;
    GRet [c; d].
  (** circuits/mod.rs:80-86 [SquareCircuit::instance] *)
  Definition square_instance (inst : option F) : G (list elem) :=
    v <- e_alloc F W inst ;; GRet [v].
  (** circuits/mod.rs:88-100 [SquareCircuit::witness]: the loop over [0..self.times] *)
  Fixpoint square_loop (times : nat) (a : elem) : G elem :=
    match times with O => GRet a | S t => a <- e_square F W a ;; square_loop t a end.
  Definition square_witness (times : nat) (w : option F) : G (list elem) :=
    a <- e_alloc F W w ;; a <- square_loop times a ;; GRet [a].
End Code.
(** as registered, without witness data *)
Definition simple_circuit (F : Field) : circuit F := fun W _ => simple_witness F W None.
Definition square_circuit (F : Field) (times : nat) : circuit F := fun W _ => square_witness F W times None.

Section Handles.
  Variable F : Field.
  (** a call of the builder: registering a circuit, which [into_circuit_object] turns
      into an object or refuses, or a bonding object *)
  Inductive tcall := TCircuit (o : option (cobj F)) | TBonding (o : cobj F).
  (** registry.rs:37-41 [TestRegistryBuilder]; [inner] is [None] after a failed
      registration *)
  Record tbuilder := mk_tbuilder { tb_inner : option (builder F); tb_circuits : nat; tb_bonding : nat }.
  (** 51-57 [new] *)
  Definition tb_new : tbuilder := mk_tbuilder (Some (rb_new F)) 0 0.
  (** the result of a call: a handle (its index, 22-24), the error of the registration, or
      the panic on a poisoned builder *)
  Inductive tresult := THandle (i : nat) | TError | TPanic.
  (** 60-71 [register_circuit]: the inner builder is taken out before the call that may
      fail *)
  Definition t_register_circuit (o : option (cobj F)) (b : tbuilder) : tresult * tbuilder :=
    let handle := tb_circuits b in
    match tb_inner b with
    | None => (TPanic, b)
    | Some inner =>
        match o with
        | None => (TError, mk_tbuilder None (tb_circuits b) (tb_bonding b))
        | Some o => (THandle handle, mk_tbuilder (Some (register_internal_circuit F o inner)) (S (tb_circuits b)) (tb_bonding b))
        end
    end.
  (** 74-85 [register_bonding] *)
  Definition t_register_bonding (o : cobj F) (b : tbuilder) : tresult * tbuilder :=
    let handle := tb_circuits b + tb_bonding b in
    match tb_inner b with
    | None => (TPanic, b)
    | Some inner => (THandle handle, mk_tbuilder (Some (register_bonding F o inner)) (tb_circuits b) (S (tb_bonding b)))
    end.
  (** a sequence of calls, with their results in order *)
  Fixpoint t_run (cs : list tcall) (b : tbuilder) : list tresult * tbuilder :=
    match cs with
    | [] => ([], b)
    | c :: cs =>
        let rb := match c with TCircuit o => t_register_circuit o b | TBonding o => t_register_bonding o b end in
        let rest := t_run cs (snd rb) in
        (fst rb :: fst rest, snd rest)
    end.
  (** 88-95 [finalize]: the inner builder, if not poisoned, is finalized *)
  Definition t_finalize (fin : builder F -> option (registry F)) (b : tbuilder) : option (registry F) :=
    match tb_inner b with Some inner => fin inner | None => None end.
End Handles.
