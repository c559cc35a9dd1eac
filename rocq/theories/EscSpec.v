(** Endoscaling of many points: one Horner accumulation. *)
From Coq Require Import List Arith.
From Verif Require Import FieldDef ModDef.
Import ListNotations.

Section Spec.
  Context {Fs : Field} {E : FMod Fs}.
  (** s^n P_0 + s^(n-1) P_1 + .. + P_n *)
  Definition combo (s : Fs) (ps : list E) : E :=
    msum (length ps) (fun i => mscale (fpow s (length ps - 1 - i)) (nth i ps m0)).
  (** the accumulation over [initial] and the first [k] inputs *)
  Definition partial_combo (s : Fs) (initial : E) (inputs : list E) (k : nat) : E := combo s (initial :: firstn k inputs).
  (** no addition of the accumulation between inputs [from] and [to] meets a point
      or its opposite *)
  Definition no_clash (s : Fs) (initial : E) (inputs : list E) (from to : nat) : Prop :=
    forall i q, from <= i < to -> nth_error inputs i = Some q ->
      mscale s (partial_combo s initial inputs i) <> q /\ mscale s (partial_combo s initial inputs i) <> mscale (fopp f1) q.
End Spec.
