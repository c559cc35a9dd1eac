(** What a gadget's type promises: its wires and values in declaration order,
    read off the contents alone. *)
From Coq Require Import List Arith NArith Bool.
From Verif Require Import FieldDef ArithSpec GadgetModel GadgetSpec RecModel DeriveModel.
Import ListNotations.

Definition attr_dec (x y : attr) : {x = y} + {x <> y}.
Proof. decide equality. Defined.

(** one annotation, or none for a gadget *)
Definition annotated (a : list attr) (t : attr) : Prop :=
  In t a /\ forall u, In u [A_value; A_wire; A_gadget; A_phantom] -> In u a -> u = t.
Definition declared (a : list attr) (t : field_type) : Prop :=
  match t with
  | T_value => annotated a A_value
  | T_wire => annotated a A_wire
  | T_phantom => annotated a A_phantom
  | T_gadget => annotated a A_gadget \/ (forall u, In u [A_value; A_wire; A_gadget; A_phantom] -> ~ In u a)
  end.

Section Spec.
  Context {F : Field} {W : Type}.
  Local Notation node := (node F W).

  (** the fields of the structs with hand-written traits *)
  Definition fits (i : impl) (fs : list (list attr * node)) : Prop :=
    match i with
    | I_derived => True
    | I_element => exists e, NStruct I_element fs = n_elem e
    | I_boolean => exists b, NStruct I_boolean fs = n_bool b
    | I_point => exists p, NStruct I_point fs = n_point p
    | I_suffix => exists g e, NStruct I_suffix fs = n_suffix g e
    end.

  (** an instance that type-checks, on a driver with ([wit]) or without values *)
  Fixpoint typed (wit : bool) (g : node) : Prop :=
    match g with
    | NWire _ | NValue _ | NPhantom => False
    | NUnit => True
    | NArray l => (fix all l := match l with [] => True | x :: r => typed wit x /\ all r end) l
    | NPair a b => typed wit a /\ typed wit b
    | NBox g => typed wit g
    | NVec n l => length l = n /\ (fix all l := match l with [] => True | x :: r => typed wit x /\ all r end) l
    | NStruct i fs =>
        fits i fs /\
        (fix all (l : list (list attr * node)) : Prop :=
           match l with
           | [] => True
           | (a, x) :: r =>
               match x with
               | NWire _ => declared a T_wire
               | NValue v => declared a T_value /\ (v <> None <-> wit = true)
               | NPhantom => declared a T_phantom
               | x => declared a T_gadget /\ typed wit x
               end /\ all r
           end) fs
    | NDemoted g => typed false g
    end.

  (** all wires, left to right *)
  Fixpoint wires (g : node) : list W :=
    match g with
    | NWire w => [w]
    | NValue _ | NPhantom | NUnit => []
    | NArray l | NVec _ l => (fix go l := match l with [] => [] | x :: r => wires x ++ go r end) l
    | NPair a b => wires a ++ wires b
    | NBox g | NDemoted g => wires g
    | NStruct _ fs => (fix go (l : list (list attr * node)) := match l with [] => [] | (_, x) :: r => wires x ++ go r end) fs
    end.
  (** all witness values, left to right *)
  Fixpoint values (g : node) : list (option (val F)) :=
    match g with
    | NValue v => [v]
    | NWire _ | NPhantom | NUnit => []
    | NArray l | NVec _ l => (fix go l := match l with [] => [] | x :: r => values x ++ go r end) l
    | NPair a b => values a ++ values b
    | NBox g | NDemoted g => values g
    | NStruct _ fs => (fix go (l : list (list attr * node)) := match l with [] => [] | (_, x) :: r => values x ++ go r end) fs
    end.
  (** everything but the wires (and, without [keep], the values): the type *)
  Fixpoint hollow (keep : bool) (g : node) : DeriveModel.node F unit :=
    match g with
    | NWire _ => NWire tt
    | NValue v => NValue (if keep then v else None)
    | NPhantom => NPhantom
    | NUnit => NUnit
    | NArray l => NArray ((fix go l := match l with [] => [] | x :: r => hollow keep x :: go r end) l)
    | NPair a b => NPair (hollow keep a) (hollow keep b)
    | NBox g => NBox (hollow keep g)
    | NVec n l => NVec n ((fix go l := match l with [] => [] | x :: r => hollow keep x :: go r end) l)
    | NStruct i fs => NStruct i ((fix go (l : list (list attr * node)) := match l with [] => [] | (a, x) :: r => (a, hollow keep x) :: go r end) fs)
    | NDemoted g => NDemoted (hollow keep g)
    end.

  (** no [Demoted] anywhere *)
  Fixpoint undemoted (g : node) : Prop :=
    match g with
    | NDemoted _ => False
    | NWire _ | NValue _ | NPhantom | NUnit => True
    | NArray l | NVec _ l => (fix all l := match l with [] => True | x :: r => undemoted x /\ all r end) l
    | NPair a b => undemoted a /\ undemoted b
    | NBox g => undemoted g
    | NStruct _ fs => (fix all (l : list (list attr * node)) : Prop := match l with [] => True | (_, x) :: r => undemoted x /\ all r end) fs
    end.
  (** every wire and value belongs to an [Element] or a [Boolean]; fields left
      out of serialization ([A_skip]) may hold anything *)
  Fixpoint plain (g : node) : Prop :=
    match g with
    | NWire _ | NValue _ | NPhantom | NDemoted _ => False
    | NUnit => True
    | NArray l | NVec _ l => (fix all l := match l with [] => True | x :: r => plain x /\ all r end) l
    | NPair a b => plain a /\ plain b
    | NBox g => plain g
    | NStruct I_element _ | NStruct I_boolean _ | NStruct I_point _ => True
    | NStruct I_suffix fs => match fs with (_, x) :: _ => plain x | [] => True end
    | NStruct I_derived fs =>
        (fix all (l : list (list attr * node)) : Prop :=
           match l with [] => True | (a, x) :: r => (In A_skip a \/ x = NPhantom \/ plain x) /\ all r end) fs
    end.
  (** without the skipped fields *)
  Fixpoint prune (g : node) : node :=
    match g with
    | NArray l => NArray ((fix go l := match l with [] => [] | x :: r => prune x :: go r end) l)
    | NVec n l => NVec n ((fix go l := match l with [] => [] | x :: r => prune x :: go r end) l)
    | NPair a b => NPair (prune a) (prune b)
    | NBox g => NBox (prune g)
    | NStruct I_derived fs =>
        NStruct I_derived ((fix go (l : list (list attr * node)) :=
          match l with [] => [] | (a, x) :: r => if in_dec attr_dec A_skip a then go r else (a, prune x) :: go r end) fs)
    | NStruct I_suffix fs => NStruct I_suffix ((fix go (l : list (list attr * node)) := match l with [] => [] | (a, x) :: r => (a, prune x) :: go r end) fs)
    | g => g
    end.
  (** the [Boolean]s and [Point]s, left to right: wire and value *)
  Fixpoint booleans (g : node) : list (W * option bool) :=
    match g with
    | NArray l | NVec _ l => (fix go l := match l with [] => [] | x :: r => booleans x ++ go r end) l
    | NPair a b => booleans a ++ booleans b
    | NBox g => booleans g
    | NStruct I_boolean [(_, NWire w); (_, NValue v)] => [(w, match v with Some (VB b) => Some b | _ => None end)]
    | NStruct _ fs => (fix go (l : list (list attr * node)) := match l with [] => [] | (_, x) :: r => booleans x ++ go r end) fs
    | _ => []
    end.
  Definition coord (x : node) : option (W * option F) :=
    match x with
    | NStruct I_element [(_, NWire w); (_, NValue v)] => Some (w, match v with Some (VF v) => Some v | _ => None end)
    | _ => None
    end.
  Fixpoint points (g : node) : list ((W * W) * option (F * F)) :=
    match g with
    | NArray l | NVec _ l => (fix go l := match l with [] => [] | x :: r => points x ++ go r end) l
    | NPair a b => points a ++ points b
    | NBox g => points g
    | NStruct I_point ((_, x) :: (_, y) :: _) =>
        match coord x, coord y with
        | Some (x, vx), Some (y, vy) => [((x, y), lift2 pair vx vy)]
        | _, _ => []
        end
    | NStruct _ fs => (fix go (l : list (list attr * node)) := match l with [] => [] | (_, x) :: r => points x ++ go r end) fs
    | _ => []
    end.
End Spec.

(** the values as field elements *)
Definition val_fe {F : Field} (v : option (val F)) : option F :=
  match v with Some (VF v) => Some v | Some (VB b) => Some (fe F b) | _ => None end.

(** applying a stateful, fallible wire map to a list, stopping at the first error *)
Fixpoint visit {St E W W' : Type} (cv : St -> W -> St * (W' + E)) (s : St) (ws : list W) : St * (list W' + E) :=
  match ws with
  | [] => (s, inl [])
  | w :: r => match cv s w with
              | (s, inr e) => (s, inr e)
              | (s, inl w') => match visit cv s r with (s, inl r') => (s, inl (w' :: r')) | (s, inr e) => (s, inr e) end
              end
  end.
