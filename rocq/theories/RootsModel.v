(** Model of [poly_with_roots], crates/ragu_arithmetic/src/util.rs:332-385. *)
From Coq Require Import List Arith Bool.
From Verif Require Import FieldDef ModDef ArithModel FFTModel.
Import ListNotations.

(** [usize::next_power_of_two] for positive arguments *)
Definition next_pow2 (x : nat) : nat := 2 ^ Nat.log2_up x.

Section Roots.
  Variable F : Field.
  Variable T : TwoAdic F.
  Variable threads : nat.   (* worker threads seen by each transform *)

  (** util.rs:363-365, pointwise product in place *)
  Fixpoint pointwise (a b : list F) : list F :=
    match a, b with x :: a', y :: b' => fmul x y :: pointwise a' b' | _, _ => [] end.

  (** util.rs:347-370, the body of the inner loop.  The scratch buffers are
      reused between calls, but every slot below n is overwritten first
      (copy_from_slice + fill), so the model starts from fresh padding.  [None]:
      the domain is unavailable or a scratch buffer of size [max_domain] is too
      small (slice index panic). *)
  Definition mul_pair (max_domain : nat) (p q : list F) : option (list F) :=
    let new_degree := (length p - 1) + (length q - 1) in
    let domain_size := next_pow2 (new_degree + 1) in
    match domain_new T (Nat.log2 domain_size) with
    | None => None
    | Some d =>
        let n := d_n d in
        if (n <=? max_domain) && (length p <=? n) && (length q <=? n) then
          match d_fft threads d (p ++ repeat f0 (n - length p)),
                d_fft threads d (q ++ repeat f0 (n - length q)) with
          | Some s1, Some s2 =>
              match d_ifft threads d (pointwise s1 s2) with
              | Some r => Some (firstn (new_degree + 1) r)
              | None => None
              end
          | _, _ => None
          end
        else None
    end.

  (** util.rs:345-370, [for i in 0..pairs], writing [polys[i]] in place *)
  Fixpoint pair_loop (max_domain : nat) (is : list nat) (polys : list (list F))
    : option (list (list F)) :=
    match is with
    | [] => Some polys
    | i :: is' =>
        match mul_pair max_domain (nth (2 * i) polys []) (nth (2 * i + 1) polys []) with
        | Some r => pair_loop max_domain is' (upd polys i r)
        | None => None
        end
    end.

  (** util.rs:341-382, the outer loop; the list at least halves (rounding up), so
      [fuel = length] suffices *)
  Fixpoint roots_loop (fuel max_domain : nat) (polys : list (list F)) : option (list (list F)) :=
    match fuel with
    | O => if length polys <=? 1 then Some polys else None
    | S fuel' =>
        if length polys <=? 1 then Some polys
        else
          let pairs := length polys / 2 in
          let has_odd := (length polys mod 2 =? 1) in
          match pair_loop max_domain (seq 0 pairs) polys with
          | None => None
          | Some polys =>
              let last_idx := length polys - 1 in
              let polys := if has_odd && (pairs <? last_idx) then swap polys pairs last_idx else polys in
              roots_loop fuel' max_domain (firstn (pairs + if has_odd then 1 else 0) polys)
          end
    end.

  (** util.rs:332-385 [poly_with_roots] *)
  Definition poly_with_roots (roots : list F) : option (list F) :=
    match roots with
    | [] => Some [f1]
    | _ =>
        let polys := map (fun r => [fopp r; f1]) roots in
        match roots_loop (length polys) (next_pow2 (length roots + 1)) polys with
        | Some (p :: _) => Some p
        | _ => None
        end
    end.
End Roots.
Arguments poly_with_roots {F} T threads roots. Arguments mul_pair {F} T threads max_domain p q.
Arguments pair_loop {F} T threads max_domain is polys.
Arguments roots_loop {F} T threads fuel max_domain polys. Arguments pointwise {F} a b.
