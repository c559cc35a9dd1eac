(** The Send contract of gadgets: what rustc checks of the code generated for a
    gadget, what [Sendable] then claims, and the auto trait rules for [Send].

    Types are the field types of gadgets.  Lifetimes are not modelled, and a
    type parameter stands for each of its instances. *)
From Coq Require Import List Bool.
From Verif Require Import FieldDef DeriveModel.
Import ListNotations.

(** crates/ragu_core/src/drivers.rs:93-103: what matters of a driver here:
    whether [D::Wire] is [Send], whether [D] itself is, and whether its
    [MaybeKind] is [Always] *)
Record drv := mk_drv { wire_send : bool; self_send : bool; always : bool }.

(** [YWire] is [D::Wire]; [YValue r] is [DriverValue<D, R>] for a type R that
    does not mention the driver and is [Send] when r; [YPhantom t] is
    [PhantomData<T>]; [YDriver] is [D]; [YPlain s] is any type that does not
    mention the driver, [Send] when s; [YUnit], [YArray], [YPair], [YBox] are
    crates/ragu_core/src/gadgets/foreign.rs:16-182; [YVec] is [FixedVec] of
    crates/ragu_primitives/src/vec.rs:75-78; [YDemoted] is
    crates/ragu_primitives/src/promotion.rs:116-118; [YStruct] is a struct
    deriving [Gadget]. *)
Inductive ty :=
| YWire | YValue (r : bool) | YPhantom (t : ty) | YUnit | YArray (t : ty) | YPair (a b : ty)
| YBox (t : ty) | YVec (t : ty) | YStruct (fs : flds) | YDemoted (t : ty) | YDriver | YPlain (s : bool)
with flds := FNil | FCons (attrs : list attr) (t : ty) (fs : flds).

(** promotion.rs:37-46 [DemotedDriver]: the same wires, no witness data, and a
    marker that holds the driver *)
Definition demoted (d : drv) : drv := mk_drv (wire_send d) (self_send d) false.

(** Not code of the repository: Rust's rule for the auto trait: a type is [Send] when all its parts are.
    [Always<T>] (maybe/always.rs:7) has a T, [Empty] (maybe/empty.rs:7) nothing;
    a [FixedVec] also has a [PhantomData<L>], and [L: Len] is [Send]
    (vec.rs:35). *)
Fixpoint send (d : drv) (t : ty) {struct t} : bool :=
  match t with
  | YWire => wire_send d
  | YValue r => if always d then r else true
  | YPhantom t => send d t
  | YUnit => true
  | YArray t | YBox t | YVec t => send d t
  | YPair a b => send d a && send d b
  | YStruct fs => send_flds d fs
  | YDemoted t => send (demoted d) t
  | YDriver => self_send d
  | YPlain s => s
  end
with send_flds (d : drv) (fs : flds) {struct fs} : bool :=
  match fs with
  | FNil => true
  | FCons _ t fs => send d t && send_flds d fs
  end.

(** Which types are gadgets.  The unsafe impls of foreign.rs:24,63,113,156,
    vec.rs:237 and promotion.rs:163 ask that the contents are gadgets; the two of
    ragu_pcd/src/internal/native/stages/query.rs:111,149 are structs of elements.  The
    derived one (crates/ragu_macros/src/derive/gadget.rs:228-282) compiles when
    each initializer of [map_gadget] (228-248) has the type of its field:
    [just] asks for a [DriverValue<D, R>] with [R: Send] (and [is_send] for
    [Send] of the result), [convert_wire] gives a [D::Wire], [Gadget::map] asks
    for a gadget and [PhantomData] fits every [PhantomData<T>]. *)
Fixpoint is_gadget (t : ty) : bool :=
  match t with
  | YUnit => true
  | YArray t | YBox t | YVec t | YDemoted t => is_gadget t
  | YPair a b => is_gadget a && is_gadget b
  | YStruct fs => derives fs
  | YWire | YValue _ | YPhantom _ | YDriver | YPlain _ => false
  end
with derives (fs : flds) : bool :=
  match fs with
  | FNil => true
  | FCons attrs t fs =>
      match classify attrs with
      | None => false
      | Some T_value => match t with YValue r => r | _ => false end
      | Some T_wire => match t with YWire => true | _ => false end
      | Some T_gadget => is_gadget t
      | Some T_phantom => match t with YPhantom _ => true | _ => false end
      end && derives fs
  end.

(** crates/ragu_primitives/src/sendable.rs:19-25 [Sendable::new]: accepted for
    gadgets of drivers with [Send] wires; the result is [Send] by the unsafe
    impl of line 36 *)
Definition sendable_new (d : drv) (t : ty) : bool := is_gadget t && wire_send d.
