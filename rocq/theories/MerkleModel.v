(** The application of the crate's end-to-end tests
    (crates/ragu_testing/src/pcd/nontrivial.rs, crates/ragu_pcd/tests/nontrivial.rs):
    a leaf is the Poseidon hash of a witness, an internal node the hash of two leaves. *)
From Coq Require Import List Arith NArith Bool.
From Verif Require Import FieldDef ArithModel GadgetModel SpongeModel RecModel CompileModel AppModel AppSpec HistSpec.
Import ListNotations.
Open Scope g_scope.

Section Merkle.
  Variables (F : Field) (P : pparams F).
  Section Code.
    Variables (W : Type) (one : W) (wit : bool).
    Notation elem := (elem F W).
    Notation G := (G F W).
    Notation perm := (permutation F W one wit P).
    (** nontrivial.rs:96-137 [WitnessLeaf::witness]; the elements the three header gadgets
        write ([()] writes none, [Element] itself).  The data and aux results are not
        modelled. *)
    Definition leaf_witness (w : option F) : G (list elem * list elem * list elem) :=
      leaf <- e_alloc F W w ;;
      m <- sp_new F W one wit P ;;
      m <- sp_absorb F W P perm m leaf ;;
      r <- sp_squeeze F W P perm m ;;
      match r with inl _ => GErr | inr (leaf, _) => GRet ([], [], [leaf]) end.
    (** nontrivial.rs:51-88 [Hash2::witness]; [Encoded::new] allocates through
        [Header::encode], 24-29 *)
    Definition hash2_witness (left right : option F) : G (list elem * list elem * list elem) :=
      left <- e_alloc F W left ;;
      right <- e_alloc F W right ;;
      m <- sp_new F W one wit P ;;
      m <- sp_absorb F W P perm m left ;;
      m <- sp_absorb F W P perm m right ;;
      r <- sp_squeeze F W P perm m ;;
      match r with inl _ => GErr | inr (output, _) => GRet ([left], [right], [output]) end.
  End Code.
  (** nontrivial.rs:20, 35 [SUFFIX] of LeafNode and InternalNode *)
  Definition leaf_suffix : suffix := suffix_new 0.
  Definition node_suffix : suffix := suffix_new 1.
  (** the two steps (INDEX 0 and 1) with their header types, as [HistSpec.sbody] *)
  Definition wires_of (t : list (elem F F) * list (elem F F) * list (elem F F)) : list F * list F * list F :=
    (map (ew F F) (fst (fst t)), map (ew F F) (snd (fst t)), map (ew F F) (snd t)).
  Definition leaf_body : sbody F :=
    mk_sbody trivial_suffix trivial_suffix leaf_suffix (t <- leaf_witness F f1 false None ;; GRet (wires_of t)).
  Definition hash2_body : sbody F :=
    mk_sbody leaf_suffix leaf_suffix node_suffix (t <- hash2_witness F f1 false None None ;; GRet (wires_of t)).
  Variables (of_u : N -> F) (hs : nat).
  (** step/internal/adapter.rs:74-112: the registered circuit of a step *)
  Definition adapted (body : sbody F) (wf : forall W : Type, W -> G F W (list (elem F W) * list (elem F W) * list (elem F W))) : circuit F := fun W one =>
    t <- wf W one ;;
    adapter_write F W one false hs (Some (suffix_value of_u (sb_left body))) (Some (suffix_value of_u (sb_right body))) (Some (suffix_value of_u (sb_out body)))
      (EncGadget (fst (fst t))) (EncGadget (snd (fst t))) (EncGadget (snd t)).
  Definition leaf_circuit : circuit F := adapted leaf_body (fun W one => leaf_witness W one false None).
  Definition hash2_circuit : circuit F := adapted hash2_body (fun W one => hash2_witness W one false None None).
End Merkle.
