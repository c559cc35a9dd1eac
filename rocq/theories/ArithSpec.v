(** Specifications for C01-C04, independent of the model's helpers. *)
From Coq Require Import List Arith.
From Verif Require Import FieldDef ArithModel.
Import ListNotations.

Section Lin.
  Variables (F : Field) (W : Type).
  (** what the single call contributes before gain *)
  Definition call_sum (wv : W -> F) (op : lcall F W) : F :=
    match op with
    | LTerm w c => fmul (c_value c) (wv w)
    | LGain _ => f0
    | LAdd w => wv w
    | LSub w => fopp (wv w)
    | LExtend ts => lsum (map (fun t => fmul (c_value (snd t)) (wv (fst t))) ts)
    end.
  (** product of the gains requested in a list of calls *)
  Definition gains (ops : list (lcall F W)) : F :=
    lprod (map (fun op => match op with LGain c => c_value c | _ => f1 end) ops).
  (** each call contributes its own terms times the gains requested before it *)
  Definition lin_spec (wv : W -> F) (ops : list (lcall F W)) : F :=
    fsum (length ops) (fun i =>
      fmul (gains (firstn i ops))
           (match nth_error ops i with Some op => call_sum wv op | None => f0 end)).
End Lin.
Arguments lin_spec {F W} wv ops. Arguments gains {F W} ops. Arguments call_sum {F W} wv op.

(** [is_product p rs]: p is the coefficient list of the product of (X - r),
    characterised by length, leading coefficient and values. *)
Definition monic_product_of {F : Field} (p rs : list F) : Prop :=
  length p = S (length rs) /\
  nth (length rs) p f0 = f1 /\
  forall x, peval p x = lprod (map (fun r => fsub x r) rs).

(** Schoolbook product of linear factors: coefficient m of (X - r) p is
    p_(m-1) - r p_m. *)
Definition mul_linear {F : Field} (r : F) (p : list F) : list F :=
  map (fun m => fsub (match m with O => f0 | S m' => nth m' p f0 end) (fmul r (nth m p f0)))
      (seq 0 (S (length p))).
Fixpoint roots_poly {F : Field} (rs : list F) : list F :=
  match rs with [] => [f1] | r :: rs' => mul_linear r (roots_poly rs') end.
