(** Values that exist or not (crates/ragu_core/src/maybe/), and the driver that keeps
    nothing (crates/ragu_core/src/drivers/phantom.rs).

    Elsewhere in the model the value of a driver that keeps values is [Some v] and that of
    one that does not is [None]; here the type depends on the kind, as in the code.
    Closures may have effects: they run on a state, and may panic ([None]).  References
    ([as_ref], [as_mut]) are the values they refer to; [as_mut] followed by a write is
    [m_write]. *)
From Coq Require Import List Arith Bool.
From Verif Require Import FieldDef GadgetModel CompileModel.
Import ListNotations.

(** maybe/mod.rs:162-183 [MaybeKind]: the two kinds, and [Perhaps] *)
Inductive mkind := KAlways | KEmpty.
Definition perhaps (K : mkind) (T : Type) : Type := match K with KAlways => T | KEmpty => unit end.

Section Ops.
  Variable S : Type.
  (** a closure's body: a state in, and a result with the state after it, or a panic *)
  Definition eff (A : Type) : Type := S -> option (A * S).
  Definition ret {A : Type} (a : A) : eff A := fun s => Some (a, s).
  Definition bind {A B : Type} (m : eff A) (f : A -> eff B) : eff B := fun s => match m s with Some (a, s') => f a s' | None => None end.
  (** always.rs:23-25, empty.rs:20-22 [just] *)
  Definition m_just (K : mkind) {R : Type} : eff R -> eff (perhaps K R) :=
    match K with KAlways => fun f => f | KEmpty => fun _ => ret tt end.
  (** always.rs:26-28, empty.rs:23-25 [try_just]: the closure may also return an error *)
  Definition m_try_just (K : mkind) {R E : Type} : eff (R + E) -> eff (perhaps K R + E) :=
    match K with KAlways => fun f => f | KEmpty => fun _ => ret (inl tt) end.
  (** always.rs:29-31, empty.rs:26-45 [take]; on Empty it does not compile: [None] *)
  Definition m_take (K : mkind) {T : Type} : perhaps K T -> eff T :=
    match K with KAlways => fun v => ret v | KEmpty => fun _ _ => None end.
  (** mod.rs:110-126 [as_ref], [snag] *)
  Definition m_as_ref (K : mkind) {T : Type} (m : perhaps K T) : perhaps K T := m.
  Definition m_snag (K : mkind) {T : Type} (m : perhaps K T) : eff T := m_take K (m_as_ref K m).
  (** always.rs:32-37, empty.rs:46-51 [map] *)
  Definition m_map (K : mkind) {T U : Type} : (T -> eff U) -> perhaps K T -> eff (perhaps K U) :=
    match K with KAlways => fun f v => f v | KEmpty => fun _ _ => ret tt end.
  (** always.rs:38-43, empty.rs:52-57 [into] *)
  Definition m_into (K : mkind) {T U : Type} (conv : T -> U) : perhaps K T -> perhaps K U :=
    match K with KAlways => conv | KEmpty => fun _ => tt end.
  (** always.rs:50-55, empty.rs:64-69 [and_then] *)
  Definition m_and_then (K : mkind) {T U : Type} : (T -> eff (perhaps K U)) -> perhaps K T -> eff (perhaps K U) :=
    match K return (T -> eff (perhaps K U)) -> perhaps K T -> eff (perhaps K U) with KAlways => fun f v => f v | KEmpty => fun _ _ => ret tt end.
  (** [as_mut] (always.rs:62-64, empty.rs:76-78) and a closure that writes through the
      reference *)
  Definition m_write (K : mkind) {T : Type} : (T -> T) -> perhaps K T -> perhaps K T :=
    match K with KAlways => fun f v => f v | KEmpty => fun _ v => v end.
  (** mod.rs:179 [MaybeKind::empty]: always.rs:14-17 does not compile, empty.rs:12-14 *)
  Definition m_empty (K : mkind) (T : Type) : option (perhaps K T) :=
    match K with KAlways => None | KEmpty => Some tt end.

  (** tuples and arrays: a value for every type of a list *)
  Fixpoint tuple (Ts : list Type) : Type := match Ts with [] => unit | T :: Ts => (T * tuple Ts)%type end.
  (** cast.rs:3-16 and the impls of ragu_macros proc/maybe_cast.rs:22-40, [MaybeCast] with
      its two methods; an array is a tuple of equal types *)
  Fixpoint c_empty (K : mkind) (Ts : list Type) : option (tuple (map (perhaps K) Ts)) :=
    match Ts return option (tuple (map (perhaps K) Ts)) with
    | [] => Some tt
    | T :: Ts => match m_empty K T, c_empty K Ts with Some a, Some r => Some (a, r) | _, _ => None end
    end.
  Fixpoint c_cast (K : mkind) (Ts : list Type) : tuple Ts -> eff (tuple (map (perhaps K) Ts)) :=
    match Ts return tuple Ts -> eff (tuple (map (perhaps K) Ts)) with
    | [] => fun _ => ret tt
    | T :: Ts => fun t => bind (m_just K (ret (fst t))) (fun a => bind (c_cast K Ts (snd t)) (fun r => ret (a, r)))
    end.
  (** always.rs:66-71, empty.rs:80-85 [cast] *)
  Definition m_cast (K : mkind) (Ts : list Type) : perhaps K (tuple Ts) -> eff (tuple (map (perhaps K) Ts)) :=
    match K return perhaps K (tuple Ts) -> eff (tuple (map (perhaps K) Ts)) with
    | KAlways => c_cast KAlways Ts
    | KEmpty => fun _ s => match c_empty KEmpty Ts with Some r => Some (r, s) | None => None end
    end.
  (** proc/maybe_cast.rs:5-19 [evaluate]: the tuple sizes that get an impl *)
  Definition cast_sizes (max : nat) : option (list nat) := if Nat.ltb max 2 then None else Some (seq 2 (max - 1)).
End Ops.
(** the value in the rest of the model *)
Definition as_option (K : mkind) {T : Type} : perhaps K T -> option T :=
  match K with KAlways => fun v => Some v | KEmpty => fun _ => None end.

(** phantom.rs:30-58: gates, sums and constraints are accepted without running any closure;
    the wire is [()] *)
Fixpoint phantom {F : Field} {A : Type} (p : G F unit A) : option A :=
  match p with
  | GRet a => Some a
  | GErr => None
  | GGate _ k => phantom (k tt tt tt tt)
  | GAlloc _ k => phantom (k tt)
  | GAdd _ k => phantom (k tt)
  | GEnf _ k => phantom k
  end.
