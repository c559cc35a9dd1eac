(** Headers, step registration and the step adapter (crates/ragu_pcd/src: header.rs,
    lib.rs, step/mod.rs, step/encoder.rs, step/internal/*.rs, internal/suffix.rs,
    internal/native/mod.rs and internal/nested/mod.rs registration). *)
From Coq Require Import List Arith NArith Bool.
From Verif Require Import FieldDef ModDef FFTModel SparseModel CircModel RegModel GadgetModel PcdModel.
Import ListNotations.
Local Open Scope nat_scope.

(** ** suffixes *)
(** header.rs:21 *)
Definition NUM_INTERNAL_SUFFIXES : N := 2.
(** header.rs:26-39 [HeaderSuffix], [Suffix]: a [usize] is a number below 2^64 *)
Inductive suffix := SufInternal (i : N) | SufApplication (i : N).
Definition suffix_eqb (a b : suffix) : bool :=
  match a, b with
  | SufInternal i, SufInternal j => N.eqb i j
  | SufApplication i, SufApplication j => N.eqb i j
  | _, _ => false
  end.
(** header.rs:43-47 [Suffix::new], 60-69 [Suffix::internal] *)
Definition suffix_new (v : N) : suffix := SufApplication v.
Definition suffix_internal (v : N) : option suffix := if N.ltb v NUM_INTERNAL_SUFFIXES then Some (SufInternal v) else None.
(** header.rs:51-56 [get]: the addition overflows with a panic when overflow checks
    are compiled in ([checks]), and wraps otherwise *)
Definition suffix_get (checks : bool) (s : suffix) : option N :=
  match s with
  | SufInternal i => Some i
  | SufApplication i =>
      let v := (i + NUM_INTERNAL_SUFFIXES)%N in
      if N.ltb v (2 ^ 64) then Some v else if checks then None else Some (v mod 2 ^ 64)%N
  end.
(** header.rs:104 [SUFFIX] of the trivial header *)
Definition trivial_suffix : suffix := SufInternal 1.

(** ** padded encodings *)
Section Enc.
  Variables (F : Field) (W : Type) (one : W).
  Local Notation G := (G F W).
  Local Notation elem := (elem F W).
  (** step/internal/padded.rs:95-118 [CountingBuffer::write]: state is the buffer and
      the counter; [hs - 1] underflows (panic) for a zero header size *)
  Definition counting_write (hs : nat) (st : list elem * nat) (v : elem) : option (list elem * nat) :=
    match hs with
    | O => None
    | S lim => if lim <=? snd st then None else Some (fst st ++ [v], S (snd st))
    end.
  Fixpoint write_all (hs : nat) (data : list elem) (st : list elem * nat) : option (list elem * nat) :=
    match data with
    | [] => Some st
    | v :: r => obind (counting_write hs st v) (write_all hs r)
    end.
  (** step/internal/padded.rs:86-88: the padding loop; [fuel] bounds its iterations *)
  Fixpoint pad_loop (wit : bool) (hs fuel : nat) (st : list elem * nat) : G (list elem * nat) :=
    match fuel with
    | O => GRet st
    | S fuel =>
        if snd st <? hs - 1 then
          z <- e_zero F W one wit ;;
          match counting_write hs st z with
          | Some st => pad_loop wit hs fuel st
          | None => GErr
          end
        else GRet st
    end.
  (** step/internal/padded.rs:66-91 [PaddedContent::write_gadget]: [data] are the
      elements written by the header gadget, [buf] the elements already there *)
  Definition padded_content_write (wit : bool) (hs : nat) (data buf : list elem) : G (list elem) :=
    match hs with
    | O => GErr
    | S _ =>
        match write_all hs data (buf, 0) with
        | None => GErr
        | Some st => st <- pad_loop wit hs hs st ;; GRet (fst st)
        end
    end.
  (** step/internal/padded.rs:37-50 [for_header] (the suffix constant first), then
      internal/suffix.rs:29-39 [WithSuffix::write_gadget].  [sfx] is
      [F::from(H::SUFFIX.get())], [None] its overflow panic *)
  Definition padded_write (wit : bool) (hs : nat) (sfx : option F) (data buf : list elem) : G (list elem) :=
    match sfx with
    | None => GErr
    | Some v =>
        s <- e_constant F W one wit v ;;
        buf <- padded_content_write wit hs data buf ;;
        GRet (buf ++ [s])
    end.
End Enc.

(** step/encoder.rs:47-58 [Encoded]: the elements a [Gadget] writes, or the fixed
    size vector of a [Uniform] encoding *)
Inductive encoded (F : Field) (W : Type) := EncGadget (data : list (elem F W)) | EncUniform (elements : list (elem F W)).
Arguments EncGadget {F W}. Arguments EncUniform {F W}.

Section Step.
  Variables (F : Field) (W : Type) (one : W).
  Local Notation G := (G F W).
  Local Notation elem := (elem F W).
  (** step/encoder.rs:102-112 [Encoded::write] *)
  Definition encoded_write (wit : bool) (hs : nat) (sfx : option F) (e : encoded F W) (buf : list elem) : G (list elem) :=
    match e with
    | EncGadget data => padded_write F W one wit hs sfx data buf
    | EncUniform l => GRet (buf ++ l)
    end.
  (** allocation of a list of elements, one after the other *)
  Fixpoint alloc_all (vs : list (option F)) : G (list elem) :=
    match vs with
    | [] => GRet []
    | v :: r => e <- e_alloc F W v ;; es <- alloc_all r ;; GRet (e :: es)
    end.
  (** the values the emulator writes for a header whose gadget writes the values
      [data] (the emulator runs [for_header] and [write] on value-only wires);
      [None] is its error *)
  Definition emulated_padded (hs : nat) (sfx : option F) (data : list F) : option (list F) :=
    match simulate (padded_write F F f1 true hs sfx (map (fun v => mk_elem F F v (Some v)) data) []) (mk_simst 0 0 0) with
    | Some (l, _) => Some (map (ew F F) l)
    | None => None
    end.
  (** step/encoder.rs:124-140 [new_uniform] with the allocation of io/pipe.rs:30-35,
      returning the elements of the [Uniform] encoding.
      [data] has the length of the encoding, its values are used when [wit]; on a
      driver without values the same number of elements is written without values *)
  Definition new_uniform (wit : bool) (hs : nat) (sfx : option F) (data : list F) : G (list elem) :=
    match emulated_padded hs sfx data with
    | None => GErr
    | Some raw =>
        l <- alloc_all (map (fun v => if wit then Some v else None) raw) ;;
        if length l =? hs then GRet l else GErr
    end.
  (** step/internal/adapter.rs:69-111 [Adapter::witness] after the step has produced
      its three encodings: left, right, output are written to one buffer whose length
      must be three header sizes *)
  Definition adapter_write (wit : bool) (hs : nat) (sl sr so : option F) (left right output : encoded F W) : G (list elem) :=
    b <- encoded_write wit hs sl left [] ;;
    b <- encoded_write wit hs sr right b ;;
    b <- encoded_write wit hs so output b ;;
    if length b =? hs * 3 then GRet b else GErr.
  (** step/internal/rerandomize.rs:38-74 [Rerandomize::witness] through the adapter *)
  Definition rerandomize_circuit (wit : bool) (hs : nat) (sfx trivial : option F) (data : list F) : G (list elem) :=
    l <- new_uniform wit hs sfx data ;;
    adapter_write wit hs sfx trivial sfx (EncUniform l) (EncGadget []) (EncUniform l).
  (** step/internal/trivial.rs:31-55 [Trivial::witness] through the adapter *)
  Definition trivial_circuit (wit : bool) (hs : nat) (trivial : option F) : G (list elem) :=
    adapter_write wit hs trivial trivial trivial (EncGadget []) (EncGadget []) (EncGadget []).
End Step.

(** ** indices *)
(** step/mod.rs:19-35 *)
Inductive istep := IRerandomize | ITrivial.
Definition istep_num (i : istep) : nat := match i with IRerandomize => 0 | ITrivial => 1 end.
Definition NUM_INTERNAL_STEPS : nat := 2.
(** internal/native/mod.rs:51 *)
Definition NUM_INTERNAL_CIRCUITS : nat := 13.
(** step/mod.rs:29-45 [StepIndex], [Index] *)
Inductive step_index := StInternal (i : istep) | StApplication (i : nat).
(** crates/ragu_circuits/src/registry.rs:37-39 [CircuitIndex::new]: panics above u32 *)
Definition circuit_index_new (i : nat) : option nat := if N.ltb (N.of_nat i) (2 ^ 32) then Some i else None.
(** step/mod.rs:63-84 [Index::circuit_index] *)
Definition step_circuit_index (ix : step_index) (num_application_steps : nat) : option nat :=
  match ix with
  | StInternal i => Some (NUM_INTERNAL_CIRCUITS + istep_num i)
  | StApplication i =>
      if num_application_steps <=? i then None else circuit_index_new (NUM_INTERNAL_STEPS + NUM_INTERNAL_CIRCUITS + i)
  end.
(** step/mod.rs:100-113 [assert_index]; errors and the panic are [None] *)
Definition assert_index (ix : step_index) (expect : nat) : option unit :=
  match ix with
  | StApplication i => if i =? expect then Some tt else None
  | StInternal _ => None
  end.

(** ** registration *)
Section App.
  Variables (F Fs : Field).
  (** a header type: its suffix and its [TypeId] *)
  Record header := mk_header { h_suffix : suffix; h_type : nat }.
  (** a step: index, headers, and the object of its adapter circuit ([None] when
      building it fails) *)
  Record step := mk_step { st_index : step_index; st_left : header; st_right : header; st_output : header; st_obj : option (cobj F) }.
  (** lib.rs:53-59 [ApplicationBuilder]; the BTreeMap is an association list *)
  Record app_builder := mk_app_builder {
    ab_native : builder F; ab_nested : builder Fs; ab_steps : nat; ab_headers : list (suffix * nat) }.
  Definition ab_new : app_builder := mk_app_builder (rb_new F) (rb_new Fs) 0 [].
  Fixpoint header_get (m : list (suffix * nat)) (s : suffix) : option nat :=
    match m with
    | [] => None
    | (s', t) :: r => if suffix_eqb s' s then Some t else header_get r s
    end.
  (** lib.rs:185-200 [prevent_duplicate_suffixes] *)
  Definition prevent_dup (h : header) (m : list (suffix * nat)) : option (list (suffix * nat)) :=
    match header_get m (h_suffix h) with
    | Some t => if t =? h_type h then Some m else None
    | None => Some ((h_suffix h, h_type h) :: m)
    end.
  (** lib.rs:93-107 [register] *)
  Definition register (b : app_builder) (s : step) : option app_builder :=
    obind (assert_index (st_index s) (ab_steps b)) (fun _ =>
    obind (prevent_dup (st_output s) (ab_headers b)) (fun m =>
    obind (prevent_dup (st_left s) m) (fun m =>
    obind (prevent_dup (st_right s) m) (fun m =>
    obind (st_obj s) (fun o =>
    Some (mk_app_builder (register_circuit F o (ab_native b)) (ab_nested b) (S (ab_steps b)) m)))))).
  Fixpoint register_steps (b : app_builder) (l : list step) : option app_builder :=
    match l with
    | [] => Some b
    | s :: r => obind (register b s) (fun b => register_steps b r)
    end.

  (** internal/native/mod.rs:55-59 [total_circuit_counts] *)
  Definition total_circuit_counts (n : nat) : nat * nat :=
    let t := n + NUM_INTERNAL_STEPS + NUM_INTERNAL_CIRCUITS in (t, Nat.log2_up t).
  (** internal/native/mod.rs:312-405 [register_all]: [obj] builds the circuit or mask
      of an index *)
  Definition native_register (obj : icid -> option (cobj F)) (b : option (builder F)) (id : icid) : option (builder F) :=
    obind b (fun b => obind (obj id) (fun o =>
      Some (match id with
            | Hashes1Circuit | Hashes2Circuit | InnerCollapseCircuit | OuterCollapseCircuit | ComputeVCircuit => register_internal_circuit F o b
            | _ => register_bonding F o b
            end))).
  Definition native_register_all (obj : icid -> option (cobj F)) (b : builder F) : option (builder F) :=
    obind (fold_left (native_register obj) icid_all (Some b)) (fun b' =>
    if num_internal_circuits F b' =? num_internal_circuits F b + NUM_INTERNAL_CIRCUITS then Some b' else None).
  (** internal/nested/mod.rs:186-246 [register_all] *)
  Definition nested_register (obj : ncid -> option (cobj Fs)) (b : option (builder Fs)) (id : ncid) : option (builder Fs) :=
    obind b (fun b => obind (obj id) (fun o =>
      Some (match id with NStep _ => register_internal_circuit Fs o b | _ => register_bonding Fs o b end))).
  Definition nested_register_all (steps : nat) (obj : ncid -> option (cobj Fs)) (b : builder Fs) : option (builder Fs) :=
    obind (fold_left (nested_register obj) (ncid_all steps) (Some b)) (fun b' =>
    if num_internal_circuits Fs b' =? num_internal_circuits Fs b + (steps + 11) then Some b' else None).
  Definition ncid_eqb (a b : ncid) : bool :=
    match a, b with
    | NStep i, NStep j => i =? j
    | NEndoscalar, NEndoscalar | NPoints, NPoints | NPointsFinal, NPointsFinal
    | NBridgePreamble, NBridgePreamble | NBridgeSPrime, NBridgeSPrime | NBridgeInnerError, NBridgeInnerError
    | NBridgeOuterError, NBridgeOuterError | NBridgeAB, NBridgeAB | NBridgeQuery, NBridgeQuery
    | NBridgeF, NBridgeF | NBridgeEval, NBridgeEval => true
    | _, _ => false
    end.
  (** internal/nested/mod.rs:106-112 [circuit_index] *)
  Definition nested_circuit_index (steps : nat) (id : ncid) : option nat :=
    obind (position (ncid_eqb id) (ncid_all steps)) circuit_index_new.

  (** lib.rs:131-183 [finalize], up to the two finished registry builders; the objects
      of the native circuits depend on [log2_circuits] *)
  Definition app_finalize (steps : nat) (iobj : nat -> icid -> option (cobj F)) (sobj : istep -> option (cobj F)) (nobj : ncid -> option (cobj Fs))
    (b : app_builder) : option (builder F * builder Fs) :=
    let '(total, log2) := total_circuit_counts (ab_steps b) in
    obind (native_register_all (iobj log2) (ab_native b)) (fun nb =>
    obind (sobj IRerandomize) (fun o1 =>
    let nb := register_internal_step F o1 nb in
    obind (sobj ITrivial) (fun o2 =>
    let nb := register_internal_step F o2 nb in
    if negb (log2_circuits F nb =? log2) then None else
    if negb (num_circuits F nb =? total) then None else
    obind (nested_register_all steps nobj (ab_nested b)) (fun sb =>
    Some (nb, sb))))).
End App.
Arguments mk_step {F}. Arguments st_index {F}. Arguments st_left {F}. Arguments st_right {F}. Arguments st_output {F}. Arguments st_obj {F}.
Arguments mk_app_builder {F Fs}. Arguments ab_native {F Fs}. Arguments ab_nested {F Fs}. Arguments ab_steps {F Fs}. Arguments ab_headers {F Fs}.
