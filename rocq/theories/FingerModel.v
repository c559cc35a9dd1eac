(** Routine fingerprints (crates/ragu_circuits/src/metrics.rs).  The counting driver that
    computes them is in CircModel ([cn_run]); here are the standalone computation and the
    value that is compared.  A Rust type id is a number. *)
From Coq Require Import List Arith NArith Bool.
From Verif Require Import FieldDef ArithModel CircModel.
Import ListNotations.

Section Finger.
  Variable F : Field.
  Variables x0 x1 x2 x3 yc onec hc : F.
  (** metrics.rs:626-659 [fingerprint_routine]: a fresh counter, the inputs remapped without
      counting, the pending wire cleared, the body run; the result is the Horner
      accumulator and the counts of segment 0 *)
  Definition fingerprint_routine (nin : nat) (body : prog F) : option (F * nat * nat) :=
    let (k1, ins) := uncounted F x0 x1 x2 x3 nin (counter_new F x0 x1 x2 x3 hc) in
    let (_, k2) := cn_run F x0 x1 x2 x3 yc onec hc body ins (set_avail F k1 None) in
    match nth_error (cn_segs F k2) 0 with
    | Some s => Some (co_result F (cn_scope F k2), sr_gates F s, sr_cons F s)
    | None => None
    end.

  (** metrics.rs:92-98 [RoutineFingerprint]; 103-115 [of] with [ragu_arithmetic::low_u64],
      the low 64 bits of the canonical representation *)
  Record rfp := mk_rfp { rf_in : N; rf_out : N; rf_eval : N; rf_gates : nat; rf_cons : nat }.
  Variable repr : F -> N.
  Definition fp_of (ik ok : N) (eval : F) (g c : nat) : rfp := mk_rfp ik ok (N.modulo (repr eval) (2 ^ 64)) g c.
  (** the derived [PartialEq] *)
  Definition rfp_eqb (a b : rfp) : bool :=
    N.eqb (rf_in a) (rf_in b) && N.eqb (rf_out a) (rf_out b) && N.eqb (rf_eval a) (rf_eval b) &&
    Nat.eqb (rf_gates a) (rf_gates b) && Nat.eqb (rf_cons a) (rf_cons b).
End Finger.
