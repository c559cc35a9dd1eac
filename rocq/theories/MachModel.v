(** Sizes in machine integers: [usize] of w bits.  A checked operation that
    overflows panics ([None]); with overflow checks off (the release profile;
    Cargo.toml sets none) addition wraps. *)
From Coq Require Import List Arith.
From Verif Require Import FieldDef CircModel RegModel StageModel.
Import ListNotations.

Section Width.
  Variable w : nat.
  (** Rust's [+], [*] and [-] on [usize] (no code of the repository) *)
  Definition add_chk (a b : nat) : option nat := if a + b <? 2 ^ w then Some (a + b) else None.
  Definition add_wrap (a b : nat) : nat := (a + b) mod 2 ^ w.
  Definition mul_chk (a b : nat) : option nat := if a * b <? 2 ^ w then Some (a * b) else None.
  Definition sub_chk (a b : nat) : option nat := if b <=? a then Some (a - b) else None.
  (** [1 << k]: the shift amount must be below the width *)
  Definition shl_chk (k : nat) : option nat := if k <? w then Some (2 ^ k) else None.

  (** crates/ragu_circuits/src/polynomials/mod.rs:29-31 [num_coeffs] *)
  Definition num_coeffs_w (rank : nat) : option nat := shl_chk rank.
  (** polynomials/mod.rs:40-42 [log2_n] *)
  Definition log2_n_w (rank : nat) : option nat := sub_chk rank 2.
  (** polynomials/mod.rs:35-37 [n] *)
  Definition n_w (rank : nat) : option nat := obind (log2_n_w rank) shl_chk.
  (** registry.rs:407,547,571 and staging/mask.rs:160: [4 * R::n() - 1] *)
  Definition top_degree_w (rank : nat) : option nat :=
    obind (n_w rank) (fun n => obind (mul_chk 4 n) (fun m => sub_chk m 1)).

  (** crates/ragu_circuits/src/floor_planner.rs:80-97 [floor_plan]; both starts
      advance after every record, the last one too *)
  Fixpoint floor_go_w (gs cs : nat) (records : list (nat * nat)) : option (list cseg) :=
    match records with
    | [] => Some []
    | (g, c) :: r =>
        obind (add_chk gs g) (fun gs' => obind (add_chk cs c) (fun cs' =>
        obind (floor_go_w gs' cs' r) (fun l => Some (mk_cseg gs cs g c :: l))))
    end.
  Definition floor_plan_w (records : list (nat * nat)) : option (list cseg) := floor_go_w 0 0 records.

  (** crates/ragu_circuits/src/staging/mask.rs:26-36 [StageMask::new]; the inner
      [None] is [GateBoundExceeded], the outer one a panic *)
  Definition mask_new_chk (n skip num : nat) : option (option (nat * nat)) :=
    if Nat.eqb skip 0 then None
    else obind (add_chk skip num) (fun s => Some (if n <? s then None else Some (skip, num))).
  Definition mask_new_wrap (n skip num : nat) : option (option (nat * nat)) :=
    if Nat.eqb skip 0 then None
    else Some (if n <? add_wrap skip num then None else Some (skip, num)).
  (** staging/mask.rs:95-103, the active gates that [project] clears: an index
      outside the n gates panics; wrapping addition of the two *)
  Definition clears_wrap (n : nat) (m : nat * nat) : bool :=
    forallb (fun i => add_wrap (fst m) i <? n) (seq 0 (snd m)).
End Width.
