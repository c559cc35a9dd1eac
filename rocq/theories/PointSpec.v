(** The affine group law of y^2 = x^3 + b, geometrically. *)
From Coq Require Import List Arith.
From Verif Require Import FieldDef ModDef.

Section Curve.
  Variable F : Field.
  Variable b : F.
  Definition on_curve (p : F * F) : Prop :=
    fmul (snd p) (snd p) = fadd (fmul (fst p) (fmul (fst p) (fst p))) b.
  (** [sum_of p q r]: a line Y = l X + m meets the curve exactly in p, q and -r,
      counted with multiplicity (tangent in p when p = q) *)
  Definition sum_of (p q r : F * F) : Prop :=
    exists l m,
      snd p = fadd (fmul l (fst p)) m /\ snd q = fadd (fmul l (fst q)) m /\
      fopp (snd r) = fadd (fmul l (fst r)) m /\
      forall X, fsub (fadd (fmul X (fmul X X)) b) (fmul (fadd (fmul l X) m) (fadd (fmul l X) m))
              = fmul (fsub X (fst p)) (fmul (fsub X (fst q)) (fsub X (fst r))).
End Curve.
Arguments on_curve {F} b p. Arguments sum_of {F} b p q r.

(** A group of order |Fs| of curve points: an Fs-module with a coordinate map
    (None is the point at infinity) following the chord and tangent law. *)
Record CurveGroup (F Fs : Field) (b zeta : F) (lambda : Fs) := {
  cg_mod :> FMod Fs;
  cg_aff : cg_mod -> option (F * F);
  cg_inf : cg_aff m0 = None;
  cg_fin : forall P, P <> m0 -> cg_aff P <> None;
  cg_inj : forall P Q, cg_aff P = cg_aff Q -> P = Q;
  cg_on : forall P p, cg_aff P = Some p -> on_curve b p;
  cg_neg : forall P p, cg_aff P = Some p -> cg_aff (mscale (fopp f1) P) = Some (fst p, fopp (snd p));
  cg_endo : forall P p, cg_aff P = Some p -> cg_aff (mscale lambda P) = Some (fmul zeta (fst p), snd p);
  cg_add : forall P Q p q, cg_aff P = Some p -> cg_aff Q = Some q -> fst p <> fst q ->
             exists r, cg_aff (madd P Q) = Some r /\ sum_of b p q r;
  cg_dbl : forall P p, cg_aff P = Some p -> snd p <> f0 ->
             exists r, cg_aff (madd P P) = Some r /\ sum_of b p p r
}.
