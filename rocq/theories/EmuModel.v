(** The emulator driver (crates/ragu_core/src/drivers/emulator.rs). *)
From Coq Require Import List Arith NArith Bool.
From Verif Require Import FieldDef ArithModel GadgetModel.
Import ListNotations.

(** emulator.rs:120-138, 205-212, 315-335 [Emulator<Wired<F>>]: wires are values, [gate] returns the values
    of its closure unchecked, [alloc] is the default method (drivers.rs:244-247:
    the b wire of a gate (0, v, 0)), [add] is the [DirectSum] value and
    [enforce_zero] does nothing.  [MaybeKind = Always]: a missing witness value
    cannot happen ([None]). *)
Fixpoint emulate_wired {F : Field} {A : Type} (p : G F F A) : option A :=
  match p with
  | GRet a => Some a
  | GErr => None
  | GGate None _ => None
  | GGate (Some (a, b, c, d)) k => emulate_wired (k a b c d)
  | GAlloc None _ => None
  | GAlloc (Some v) k => emulate_wired (k v)
  | GAdd lc k => emulate_wired (k (ds_value (lin_run ds_add_term ds_do_gain lc ds_default)))
  | GEnf _ k => emulate_wired k
  end.
(** emulator.rs:144-160, 258-265, 293-312 [Emulator<Wireless<M, F>>]: wires are [()], every closure is
    discarded; the result keeps whatever values the gadgets carry. *)
Fixpoint emulate_wireless {F : Field} {A : Type} (p : G F unit A) : option A :=
  match p with
  | GRet a => Some a
  | GErr => None
  | GGate _ k => emulate_wireless (k tt tt tt tt)
  | GAlloc _ k => emulate_wireless (k tt)
  | GAdd _ k => emulate_wireless (k tt)
  | GEnf _ k => emulate_wireless k
  end.
