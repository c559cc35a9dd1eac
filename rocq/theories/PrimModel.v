(** Fixed-width endoscalar integers (crates/ragu_arithmetic/src/uendo.rs) and
    fixed-length vectors (crates/ragu_primitives/src/vec.rs). *)
From Coq Require Import List Arith NArith Bool.
From Verif Require Import FieldDef ArithModel GadgetModel FFTModel.
Import ListNotations.
Local Open Scope nat_scope.

Section Uendo.
  (** uendo.rs:14 [BITS] (136 in the code; any value the assertion at 18-30 allows) *)
  Variable B : nat.
  (** uendo.rs:15 [LIMBS = BITS.div_ceil(64)] *)
  Definition limbs_n : nat := (B + 63) / 64.
  (** u64 operations: [<<] drops the bits above 64; all limbs are below 2^64 *)
  Definition u64_max : N := N.ones 64.
  Definition shl64 (x : N) (s : nat) : N := N.land (N.shiftl x (N.of_nat s)) u64_max.
  Definition shr64 (x : N) (s : nat) : N := N.shiftr x (N.of_nat s).
  (** uendo.rs:16 [NORMALIZATION_MASK] *)
  Definition norm_mask : N := shr64 u64_max (64 - B mod 64).
  (** uendo.rs:33-37 the limbs, least significant first *)
  Definition uendo := list N.
  (** uendo.rs:54, 57-61 *)
  Definition u_zero : uendo := repeat 0%N limbs_n.
  Definition u_one : uendo := upd u_zero 0 1%N.
  (** uendo.rs:64-68 *)
  Definition u_from_u64 (v : N) : uendo := upd u_zero 0 v.
  (** uendo.rs:71-76; [as u64] keeps the low 64 bits *)
  Definition u_from_u128 (v : N) : uendo :=
    upd (upd u_zero 0 (N.land v u64_max)) 1 (N.land (N.shiftr v 64) u64_max).
  (** uendo.rs:79-87 [normalize], [normalized] *)
  Definition u_normalized (a : uendo) : uendo :=
    upd a (limbs_n - 1) (N.land (nth (limbs_n - 1) a 0%N) norm_mask).
  (** uendo.rs:39-47 [sample]: the limbs are what the generator returned *)
  Definition u_sample (random : nat -> N) : uendo :=
    u_normalized (fold_left (fun l i => upd l i (random i)) (seq 0 limbs_n) (repeat 0%N limbs_n)).
  (** uendo.rs:102-106 [eq]: comparison of the limb arrays *)
  Fixpoint u_eqb (a b : uendo) : bool :=
    match a, b with
    | [], [] => true
    | x :: a', y :: b' => N.eqb x y && u_eqb a' b'
    | _, _ => false
    end.
  (** uendo.rs:110-120, 122-132, 134-140 *)
  Definition u_and (a b : uendo) : uendo :=
    fold_left (fun r i => upd r i (N.land (nth i a 0%N) (nth i b 0%N))) (seq 0 limbs_n) u_zero.
  Definition u_or (a b : uendo) : uendo :=
    fold_left (fun r i => upd r i (N.lor (nth i a 0%N) (nth i b 0%N))) (seq 0 limbs_n) u_zero.
  Definition u_or_assign (a b : uendo) : uendo :=
    fold_left (fun r i => upd r i (N.lor (nth i r 0%N) (nth i b 0%N))) (seq 0 limbs_n) a.
  (** uendo.rs:142-166 [shl] *)
  Definition u_shl (a : uendo) (rhs : nat) : uendo :=
    if B <=? rhs then u_zero else
    let limb_shift := rhs / 64 in
    let bit_shift := rhs mod 64 in
    u_normalized
      (fold_left (fun r target =>
         let source := target - limb_shift in
         let r := upd r target (shl64 (nth source a 0%N) bit_shift) in
         if (0 <? bit_shift) && (0 <? source)
         then upd r target (N.lor (nth target r 0%N) (shr64 (nth (source - 1) a 0%N) (64 - bit_shift)))
         else r)
       (seq limb_shift (limbs_n - limb_shift)) u_zero).
  (** uendo.rs:174-198 [shr] *)
  Definition u_shr (a : uendo) (rhs : nat) : uendo :=
    if B <=? rhs then u_zero else
    let limb_shift := rhs / 64 in
    let bit_shift := rhs mod 64 in
    fold_left (fun r target =>
      let source := target + limb_shift in
      let r := upd r target (shr64 (nth source a 0%N) bit_shift) in
      if (0 <? bit_shift) && (source + 1 <? limbs_n)
      then upd r target (N.lor (nth target r 0%N) (shl64 (nth (source + 1) a 0%N) (64 - bit_shift)))
      else r)
    (seq 0 (limbs_n - limb_shift)) u_zero.
  (** crates/ragu_primitives/src/endoscalar.rs:54-56, 68-70: the bit test used by
      [Endoscalar]; 107-111: the bit set used by [extract]; 222-229: the two bit
      tests of [lift_endoscalar] *)
  Definition u_bit (v : uendo) (i : nat) : bool := u_eqb (u_and (u_shr v i) (u_from_u64 1)) (u_from_u64 1).
  Definition u_set (v : uendo) (i : nat) : uendo := u_or_assign v (u_shl (u_from_u64 1) i).
End Uendo.

(** ** FixedVec.  [L] is [L::len()]; a value is its field [v]; [Err] carries the
    error of vec.rs:83-86, or the caller's own error for the [try_] forms; a
    panic ([expect], [assert_eq!]) is [VPanic]. *)
Inductive vres (E A : Type) := VOk (a : A) | VLen (expected actual : nat) | VErr (e : E) | VPanic.
Arguments VOk {E A}. Arguments VLen {E A}. Arguments VErr {E A}. Arguments VPanic {E A}.

Section FixedVec.
  Variables (T E : Type).
  (** vec.rs:78-93 [try_from]; 119-121 [new] *)
  Definition fv_try_from (L : nat) (v : list T) : vres E (list T) :=
    if negb (length v =? L) then VLen L (length v) else VOk v.
  (** vec.rs:97-101 [collect_fixed]: the iterator is the list it yields *)
  Definition fv_collect (L : nat) (it : list T) : vres E (list T) := fv_try_from L it.
  (** vec.rs:103-112 [try_collect_fixed]: stop at the first error *)
  Fixpoint collect_results (it : list (T + E)) : list T + E :=
    match it with
    | [] => inl []
    | inr e :: _ => inr e
    | inl x :: r => match collect_results r with inl l => inl (x :: l) | inr e => inr e end
    end.
  Definition fv_try_collect (L : nat) (it : list (T + E)) : vres E (list T) :=
    match collect_results it with inl v => fv_try_from L v | inr e => VErr e end.
  (** vec.rs:126-134 [from_fn]; the closure may carry state (FnMut): [f i] is
      what its i-th call returns *)
  Definition fv_from_fn (L : nat) (f : nat -> T) : vres E (list T) :=
    match fv_collect L (map f (seq 0 L)) with VOk v => VOk v | _ => VPanic end.
  (** vec.rs:139-144 [try_from_fn] *)
  Definition fv_try_from_fn (L : nat) (f : nat -> T + E) : vres E (list T) :=
    fv_try_collect L (map f (seq 0 L)).
  (** vec.rs:148-151 [into_inner]; 154-162 [clone] *)
  Definition fv_into_inner (L : nat) (v : list T) : vres E (list T) :=
    if length v =? L then VOk v else VPanic.
  Definition fv_clone (L : nat) (v : list T) : vres E (list T) :=
    if length v =? L then VOk v else VPanic.
End FixedVec.
Arguments fv_try_from {T E}. Arguments fv_collect {T E}. Arguments fv_try_collect {T E}. Arguments fv_from_fn {T E}.
Arguments fv_try_from_fn {T E}. Arguments fv_into_inner {T E}. Arguments fv_clone {T E}.

(** vec.rs:236-251 [map_gadget]: element by element through the wire map *)
Definition fv_map_gadget {T U E : Type} (L : nat) (g : T -> U + E) (v : list T) : vres E (list U) :=
  if length v =? L then fv_try_collect L (map g v) else VPanic.
(** vec.rs:253-267 [enforce_equal_gadget]: pairs visited by the zip *)
Definition fv_zip {T U : Type} (a : list T) (b : list U) : list (T * U) := combine a b.
(** vec.rs:164-175 [write_gadget] and 220-227 [enforce_consistent]: the items in
    order; [w] is what one item appends *)
Definition fv_write {T O : Type} (w : T -> list O) (v : list T) : list O :=
  fold_left (fun buf item => buf ++ w item) v [].
