(** What the derive macros generate for gadgets, wire maps over gadgets,
    promotion, serialization and the emulator's routine calls
    (crates/ragu_macros/src/derive, crates/ragu_core/src/{convert,gadgets,
    gadgets/foreign,routines,drivers/emulator}.rs,
    crates/ragu_primitives/src/{promotion,consistent,foreign,io,io/pipe,vec}.rs).

    A gadget instance is a tree [node]: the declaration of its type (attributes,
    struct, container) and its contents together.  The generic code is run on
    the tree.  A combination that rustc rejects (a wire in a field annotated as
    gadget, [Empty::take], a missing trait) is [None] or [GErr]; type parameters,
    lifetimes and [Send] bounds are not modelled. *)
From Coq Require Import List Arith NArith Bool.
From Verif Require Import FieldDef ArithModel ArithSpec GadgetModel RecModel EmuModel.
Import ListNotations.
Open Scope g_scope.

(** helpers.rs:8-19 [attr_is]: one identifier of a [#[ragu(..)]] attribute; any
    other identifier or attribute is [A_other] *)
Inductive attr := A_value | A_wire | A_gadget | A_phantom | A_skip | A_other.
Definition attr_eqb (a b : attr) : bool :=
  match a, b with
  | A_value, A_value | A_wire, A_wire | A_gadget, A_gadget | A_phantom, A_phantom | A_skip, A_skip | A_other, A_other => true
  | _, _ => false
  end.
Definition has (a : attr) (l : list attr) : bool := existsb (attr_eqb a) l.

(** derive/gadget.rs:94-99 *)
Inductive field_type := T_value | T_wire | T_gadget | T_phantom.
(** derive/gadget.rs:115-147; [None] is the "multiple annotations" error *)
Definition classify (attrs : list attr) : option field_type :=
  match has A_value attrs, has A_wire attrs, has A_gadget attrs, has A_phantom attrs with
  | true, false, false, false => Some T_value
  | false, true, false, false => Some T_wire
  | false, false, true, false => Some T_gadget
  | false, false, false, true => Some T_phantom
  | false, false, false, false => Some T_gadget
  | _, _, _, _ => None
  end.
(** derive/consistent.rs:65-73 [should_enforce] *)
Definition should_enforce (attrs : list attr) : bool :=
  has A_gadget attrs || negb (has A_value attrs || has A_wire attrs || has A_phantom attrs).
(** derive/gadgetwrite.rs:70-80 *)
Definition serialized (attrs : list attr) : bool := negb (has A_skip attrs || has A_phantom attrs).

(** a witness value; [DriverValue<D, T>] is an [option] of it ([None]: [Empty]) *)
Inductive val (F : Field) := VF (v : F) | VB (b : bool) | VOther (n : nat).
Arguments VF {F}. Arguments VB {F}. Arguments VOther {F}.

(** which traits of a struct are written by hand: a struct deriving [Gadget],
    [Consistent] and [Write]; element.rs:52-61; boolean.rs:28-37; point.rs:25-33;
    ragu_pcd/src/internal/suffix.rs:15-21 *)
Inductive impl := I_derived | I_element | I_boolean | I_point | I_suffix.

(** contents of fields and gadgets; arrays, pairs and boxes are
    gadgets/foreign.rs:16-182, [NVec] is a [FixedVec] with declared length
    (vec.rs:75-78), [NDemoted] is promotion.rs:116-118 *)
Inductive node (F : Field) (W : Type) :=
| NWire (w : W)
| NValue (v : option (val F))
| NPhantom
| NUnit
| NArray (items : list (node F W))
| NPair (a b : node F W)
| NBox (g : node F W)
| NVec (len : nat) (items : list (node F W))
| NStruct (i : impl) (fields : list (list attr * node F W))
| NDemoted (g : node F W).
Arguments NWire {F W}. Arguments NValue {F W}. Arguments NPhantom {F W}. Arguments NUnit {F W}. Arguments NArray {F W}.
Arguments NPair {F W}. Arguments NBox {F W}. Arguments NVec {F W}. Arguments NStruct {F W}. Arguments NDemoted {F W}.

(** the declared structs as nodes, and back; field order as declared *)
Section Structs.
  Context {F : Field} {W : Type}.
  Definition n_elem (e : elem F W) : node F W :=
    NStruct I_element [([A_wire], NWire (ew _ _ e)); ([A_value], NValue (option_map VF (ev _ _ e)))].
  Definition n_bool (b : bool_g W) : node F W :=
    NStruct I_boolean [([A_wire], NWire (bw _ b)); ([A_value], NValue (option_map VB (bv _ b)))].
  Definition n_point (p : point F W) : node F W :=
    NStruct I_point [([A_gadget], n_elem (px _ _ p)); ([A_gadget], n_elem (py _ _ p)); ([A_phantom], NPhantom)].
  Definition n_suffix (inner : node F W) (suffix : elem F W) : node F W :=
    NStruct I_suffix [([A_gadget], inner); ([A_gadget], n_elem suffix)].
  Definition as_elem (n : node F W) : option (elem F W) :=
    match n with
    | NStruct I_element [(_, NWire w); (_, NValue None)] => Some (mk_elem F W w None)
    | NStruct I_element [(_, NWire w); (_, NValue (Some (VF v)))] => Some (mk_elem F W w (Some v))
    | _ => None
    end.
  Definition as_bool (fields : list (list attr * node F W)) : option (bool_g W) :=
    match fields with
    | [(_, NWire w); (_, NValue None)] => Some (mk_bool W w None)
    | [(_, NWire w); (_, NValue (Some (VB b)))] => Some (mk_bool W w (Some b))
    | _ => None
    end.
  Definition as_point (fields : list (list attr * node F W)) : option (point F W) :=
    match fields with
    | [(_, x); (_, y); (_, NPhantom)] =>
        match as_elem x, as_elem y with Some x, Some y => Some (mk_point F W x y) | _, _ => None end
    | _ => None
    end.
End Structs.

(** ** Wire maps *)
(** convert.rs:51-68: a wire map has a state and may fail; the state a failing
    call leaves is kept.  A mapped gadget is [None] where rustc rejects the code
    or an assertion fails, otherwise the state and the result. *)
Definition res (St E A : Type) : Type := option (St * (A + E)).
Definition rret {St E A : Type} (a : A) (s : St) : res St E A := Some (s, inl a).
Definition rbind {St E A B : Type} (r : res St E A) (k : A -> St -> res St E B) : res St E B :=
  match r with
  | None => None
  | Some (s, inr e) => Some (s, inr e)
  | Some (s, inl a) => k a s
  end.
(** gadget.rs:230-238: [just::<WM::Dst, _>(|| this.id.as_ref().take().clone())];
    the closure runs only if the destination carries values ([dw]) *)
Definition map_value {F : Field} (dw : bool) (v : option (val F)) : option (option (val F)) :=
  if dw then match v with Some a => Some (Some a) | None => None end else Some None.

Section Map.
  Context {F : Field} {St E W W' : Type}.
  Variable convert_wire : St -> W -> St * (W' + E).

  (** [for item in this.iter() { result.push(map(item, wm)?) }] *)
  Section Loops.
    Variable m : node F W -> St -> res St E (node F W').
    Fixpoint map_items (l : list (node F W)) (s : St) : res St E (list (node F W')) :=
      match l with
      | [] => rret [] s
      | x :: r => rbind (m x s) (fun x' s => rbind (map_items r s) (fun r' s => rret (x' :: r') s))
      end.
    (** derive/gadget.rs:228-248, 268-270: the struct literal, one initializer per field *)
    Fixpoint map_fields (dw : bool) (l : list (list attr * node F W)) (s : St) : res St E (list (list attr * node F W')) :=
      match l with
      | [] => rret [] s
      | (a, x) :: r =>
          rbind (match classify a, x with
                 | Some T_value, NValue v => match map_value dw v with Some v' => rret (NValue v') s | None => None end
                 | Some T_wire, NWire w => let '(s', o) := convert_wire s w in
                                           match o with inl w' => Some (s', inl (NWire w')) | inr e => Some (s', inr e) end
                 | Some T_gadget, x => m x s
                 | Some T_phantom, NPhantom => rret NPhantom s
                 | _, _ => None
                 end)
                (fun x' s => rbind (map_fields dw r s) (fun r' s => rret ((a, x') :: r') s))
      end.
  End Loops.

  (** gadgets.rs:125-130 [Gadget::map], 223-226 [map_gadget]; foreign.rs:27-36
      (unit), 66-83 (array), 118-127 (pair), 159-168 (box); vec.rs:240-253;
      promotion.rs:166-177 (through [Demoter], 85-99, whose driver has no values) *)
  Fixpoint map_gadget (dw : bool) (g : node F W) (s : St) : res St E (node F W') :=
    match g with
    | NWire _ | NValue _ | NPhantom => None
    | NUnit => rret NUnit s
    | NArray items => rbind (map_items (map_gadget dw) items s) (fun r s => rret (NArray r) s)
    | NPair a b => rbind (map_gadget dw a s) (fun a' s => rbind (map_gadget dw b s) (fun b' s => rret (NPair a' b') s))
    | NBox g => rbind (map_gadget dw g s) (fun g' s => rret (NBox g') s)
    | NVec len items =>
        if Nat.eqb (length items) len then
          rbind (map_items (map_gadget dw) items s)
                (fun r s => if Nat.eqb (length r) len then rret (NVec len r) s else None)
        else None
    | NStruct i fields => rbind (map_fields (map_gadget dw) dw fields s) (fun r s => rret (NStruct i r) s)
    | NDemoted g => rbind (map_gadget false g s) (fun g' s => rret (NDemoted g') s)
    end.
End Map.

(** convert.rs:98-120 [CloneWires] *)
Definition clone_wires {W : Type} (s : unit) (w : W) : unit * (W + unit) := (s, inl w).
(** convert.rs:131-146 [StripWires] *)
Definition strip_wires {W : Type} (s : unit) (w : W) : unit * (unit + unit) := (s, inl tt).
(** gadgets.rs:151-164 [WireCounter] and 150-172 [num_wires]; the destination
    [PhantomData<F>] carries no values *)
Definition wire_counter {W : Type} (count : nat) (w : W) : nat * (unit + unit) := (S count, inl tt).
Definition num_wires {F : Field} {W : Type} (g : node F W) : option nat :=
  match map_gadget wire_counter false g 0 with Some (count, inl _) => Some count | _ => None end.
(** emulator.rs:173-192 [Emulator::wires] *)
Definition wire_extractor {W : Type} (ws : list W) (w : W) : list W * (unit + unit) := (ws ++ [w], inl tt).
Definition emulator_wires {F : Field} {W : Type} (g : node F W) : option (list W) :=
  match map_gadget wire_extractor false g [] with Some (ws, inl _) => Some ws | _ => None end.
(** convert.rs:80-89 [remap] with a stateless map *)
Definition remap {F : Field} {W W' : Type} (cv : unit -> W -> unit * (W' + unit)) (dw : bool) (g : node F W) : option (node F W') :=
  match map_gadget cv dw g tt with Some (_, inl g') => Some g' | _ => None end.

(** derive/gadget.rs:158-181: the derived [clone]; [dw] says whether the gadget's
    own driver carries values.  Arrays, pairs and boxes clone their contents,
    vec.rs:159-167 asserts the length, promotion.rs:145-151 *)
Section Clone.
  Context {F : Field} {W : Type}.
  Section Loops.
    Variable m : node F W -> option (node F W).
    Fixpoint clone_items (l : list (node F W)) : option (list (node F W)) :=
      match l with
      | [] => Some []
      | x :: r => match m x, clone_items r with Some x', Some r' => Some (x' :: r') | _, _ => None end
      end.
    Fixpoint clone_fields (dw : bool) (l : list (list attr * node F W)) : option (list (list attr * node F W)) :=
      match l with
      | [] => Some []
      | (a, x) :: r =>
          match (match classify a, x with
                 | Some T_value, NValue v => option_map NValue (map_value dw v)
                 | Some T_wire, NWire w => Some (NWire w)
                 | Some T_gadget, x => m x
                 | Some T_phantom, NPhantom => Some NPhantom
                 | _, _ => None
                 end), clone_fields dw r with
          | Some x', Some r' => Some ((a, x') :: r')
          | _, _ => None
          end
      end.
  End Loops.
  Fixpoint clone (dw : bool) (g : node F W) : option (node F W) :=
    match g with
    | NWire _ | NValue _ | NPhantom => None
    | NUnit => Some NUnit
    | NArray items => option_map NArray (clone_items (clone dw) items)
    | NPair a b => match clone dw a, clone dw b with Some a', Some b' => Some (NPair a' b') | _, _ => None end
    | NBox g => option_map NBox (clone dw g)
    | NVec len items => if Nat.eqb (length items) len then option_map (NVec len) (clone_items (clone dw) items) else None
    | NStruct i fields => option_map (NStruct i) (clone_fields (clone dw) dw fields)
    | NDemoted g => option_map NDemoted (clone false g)
    end.
End Clone.

(** ** Promotion *)
(** promotion.rs:128-134 [Demoted::new] *)
Definition demote {F : Field} {W : Type} (g : node F W) : option (node F W) :=
  option_map NDemoted (remap clone_wires false g).
(** promotion.rs:137-142 [promote] for boolean.rs:201-213 *)
Definition promote_bool {F : Field} {W : Type} (d : node F W) (witness : option bool) : option (node F W) :=
  match d with
  | NDemoted (NStruct I_boolean ((_, NWire w) :: _)) => Some (n_bool (mk_bool W w witness))
  | _ => None
  end.

(** ** Enforcement *)
Section Enforce.
  Variable F : Field.
  Variable W : Type.
  Variable one : W.
  Variable cb : F. (* the curve constant of the points in the gadget *)
  Local Notation G := (G F W).
  Local Notation node := (node F W).

  Section Loops.
    Variable eq : node -> node -> G unit.
    (** [a.iter().zip(b.iter())] *)
    Fixpoint eq_items (a b : list node) : G unit :=
      match a, b with
      | x :: r, y :: s => eq x y ;;; eq_items r s
      | _, _ => GRet tt
      end.
    (** derive/gadget.rs:183-191 *)
    Fixpoint eq_fields (a b : list (list attr * node)) : G unit :=
      match a, b with
      | (t, x) :: r, (_, y) :: s =>
          match classify t, x, y with
          | Some T_wire, NWire v, NWire w => g_equal F W v w
          | Some T_gadget, x, y => eq x y
          | Some T_value, NValue _, NValue _ => GRet tt
          | Some T_phantom, NPhantom, NPhantom => GRet tt
          | _, _, _ => GErr
          end ;;; eq_fields r s
      | [], [] => GRet tt
      | _, _ => GErr
      end.
  End Loops.
  (** gadgets.rs:133-139 [enforce_equal], 234-242; foreign.rs:38-49, 85-99,
      129-142, 170-180; vec.rs:255-268; promotion.rs:179-189 *)
  Fixpoint enforce_equal (a b : node) {struct a} : G unit :=
    match a, b with
    | NUnit, NUnit => GRet tt
    | NArray l, NArray m => eq_items enforce_equal l m
    | NPair x y, NPair x' y' => enforce_equal x x' ;;; enforce_equal y y'
    | NBox x, NBox y => enforce_equal x y
    | NVec _ l, NVec _ m => eq_items enforce_equal l m
    | NStruct _ l, NStruct _ m => eq_fields enforce_equal l m
    | NDemoted x, NDemoted y => enforce_equal x y
    | _, _ => GErr
    end.

  (** boolean.rs:251-255 [enforce_consistent] *)
  Definition b_consistent (b : bool_g W) : G unit :=
    q <- b_alloc F W (bv W b) ;; enforce_equal (n_bool q) (n_bool b).
  (** consistent.rs:29-58; vec.rs:224-231; derive/consistent.rs:86-109 (derived);
      boolean.rs:251-255; point.rs:215-219; suffix.rs:40-47.  [Demoted] has no
      [Consistent] (promotion.rs:113) *)
  Fixpoint enforce_consistent (g : node) : G unit :=
    match g with
    | NWire _ | NValue _ | NPhantom | NDemoted _ => GErr
    | NUnit => GRet tt
    | NArray items | NVec _ items =>
        (fix go (l : list node) : G unit :=
           match l with [] => GRet tt | x :: r => enforce_consistent x ;;; go r end) items
    | NPair a b => enforce_consistent a ;;; enforce_consistent b
    | NBox g => enforce_consistent g
    | NStruct I_boolean fields => match as_bool fields with Some b => b_consistent b | None => GErr end
    | NStruct I_point fields => match as_point fields with Some p => p_consistent F W one cb p | None => GErr end
    | NStruct I_suffix fields => match fields with (_, inner) :: _ => enforce_consistent inner | [] => GErr end
    | NStruct _ fields =>
        (fix go (l : list (list attr * node)) : G unit :=
           match l with
           | [] => GRet tt
           | (a, x) :: r => (if should_enforce a then enforce_consistent x else GRet tt) ;;; go r
           end) fields
    end.
End Enforce.

(** ** Serialization *)
Section Write.
  Context {F : Field} {W W' B : Type}.
  (** io.rs:52-55 [Buffer::write]: [W] is the driver the gadget lives in, [W'] the
      driver the buffer calls (itself, or the other end of a [Pipe]) *)
  Variable write : B -> elem F W -> G F W' B.

  (** io.rs:40-48; foreign.rs:13-61; vec.rs:169-180; derive/gadgetwrite.rs:115-139
      (derived); element.rs:364-372; boolean.rs:191-199; suffix.rs:29-38 *)
  Fixpoint write_gadget (g : node F W) (buf : B) : G F W' B :=
    match g with
    | NWire _ | NValue _ | NPhantom | NDemoted _ => GErr
    | NUnit => GRet buf
    | NArray items | NVec _ items =>
        (fix go (l : list (node F W)) (buf : B) : G F W' B :=
           match l with [] => GRet buf | x :: r => buf <- write_gadget x buf ;; go r buf end) items buf
    | NPair a b => buf <- write_gadget a buf ;; write_gadget b buf
    | NBox g => write_gadget g buf
    | NStruct I_element _ => match as_elem g with Some e => write buf e | None => GErr end
    | NStruct I_boolean fields => match as_bool fields with Some b => write buf (b_elem F W b) | None => GErr end
    | NStruct I_suffix fields =>
        match fields with
        | [(_, inner); (_, suffix)] =>
            buf <- write_gadget inner buf ;; match as_elem suffix with Some e => write buf e | None => GErr end
        | _ => GErr
        end
    | NStruct _ fields =>
        (fix go (l : list (list attr * node F W)) (buf : B) : G F W' B :=
           match l with
           | [] => GRet buf
           | (a, x) :: r => buf <- (if serialized a then write_gadget x buf else GRet buf) ;; go r buf
           end) fields buf
    end.
End Write.
(** element.rs:375-380 [Buffer for Vec<Element>], 383-387 [()], 390-395 [usize] *)
Definition vec_write {F : Field} {W : Type} (buf : list (elem F W)) (e : elem F W) : G F W (list (elem F W)) := GRet (buf ++ [e]).
Definition unit_write {F : Field} {W : Type} (buf : unit) (e : elem F W) : G F W unit := GRet buf.
Definition count_write {F : Field} {W : Type} (buf : nat) (e : elem F W) : G F W nat := GRet (S buf).
(** pipe.rs:29-36: allocate on the other driver; [dw]: that driver carries values *)
Definition pipe_write {F : Field} {W W' B : Type} (inner : B -> elem F W' -> G F W' B) (dw : bool) (buf : B) (e : elem F W) : G F W' B :=
  match (if dw then match ev _ _ e with Some v => Some (Some v) | None => None end else Some None) with
  | None => GErr
  | Some v => e' <- e_alloc F W' v ;; inner buf e'
  end.

(** ** Routines *)
(** routines.rs:95-103 [Prediction], 110-114 [into_aux] *)
Inductive prediction (T A : Type) := Known (output : T) (aux : A) | Unknown (aux : A).
Arguments Known {T A}. Arguments Unknown {T A}.
Definition into_aux {T A : Type} (p : prediction T A) : A := match p with Known _ a => a | Unknown a => a end.
(** emulator.rs:340-349 [short_circuit_routine] *)
Definition short_circuit {F : Field} {I O A : Type} (predict : I -> G F unit (prediction O A)) (execute : I -> A -> G F unit O)
    (input : I) : G F unit O :=
  p <- predict input ;; match p with Known out _ => GRet out | Unknown aux => execute input aux end.
(** drivers.rs:339-346 the default [routine], here on a driver without wires
    (the [StripWires] copy of the input is the input) *)
Definition default_routine {F : Field} {I O A : Type} (predict : I -> G F unit (prediction O A)) (execute : I -> A -> G F unit O)
    (input : I) : G F unit O :=
  p <- predict input ;; execute input (into_aux p).
