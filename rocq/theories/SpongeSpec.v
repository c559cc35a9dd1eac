(** The Poseidon permutation and the duplex sponge on field values. *)
From Coq Require Import List Arith NArith ZArith Bool.
From Verif Require Import FieldDef SpongeModel.
Import ListNotations.
Open Scope f_scope.

Section S.
  Variable F : Field.
  (** well-formed parameters: the documented requirements of the trait *)
  Definition wf_params (P : pparams F) : Prop :=
    pp_ALPHA P = 5%Z /\ (1 <= pp_RATE P <= pp_T P)%nat /\
    length (pp_mds P) = pp_T P /\ Forall (fun row => length row = pp_T P) (pp_mds P) /\
    (2 * Nat.div (pp_FULL P) 2 + pp_PARTIAL P <= length (pp_rcs P))%nat /\
    Forall (fun rc => length rc = pp_T P) (pp_rcs P).
  (** one round: add constants, fifth powers (all, or only position 0), matrix *)
  Definition round_spec (P : pparams F) (full : bool) (rc v : list F) : list F :=
    map (fun row => fsum (pp_T P) (fun j =>
           let x := nth j v 0 + nth j rc 0 in
           (if (full || Nat.eqb j 0)%bool then x ^ 5 else x) * nth j row 0)) (pp_mds P).
  Definition is_full (P : pparams F) (r : nat) : bool :=
    (Nat.ltb r (Nat.div (pp_FULL P) 2) || Nat.leb (Nat.div (pp_FULL P) 2 + pp_PARTIAL P) r)%bool.
  Definition poseidon (P : pparams F) (v : list F) : list F :=
    fold_left (fun v r => round_spec P (is_full P r) (nth r (pp_rcs P) []) v)
              (seq 0 (2 * Nat.div (pp_FULL P) 2 + pp_PARTIAL P)) v.

  (** ** duplex sponge with rate [rate] over a permutation [pi]: one vector, a
      position in its rate part, and the direction.  Additive absorption at the
      position; the permutation is applied when the rate part is used up and when
      turning from absorbing to squeezing.  [d_perms] counts the permutations. *)
  Variables (rate width : nat) (pi : list F -> list F).
  Record duplex := mk_duplex { d_vec : list F; d_pos : nat; d_squeezing : bool; d_perms : nat }.
  Definition d_new : duplex := mk_duplex (repeat 0 width) 0 false 0.
  Definition d_permute (d : duplex) (dir : bool) : duplex := mk_duplex (pi (d_vec d)) 0 dir (S (d_perms d)).
  Definition add_at (v : list F) (i : nat) (x : F) : list F :=
    firstn i v ++ (nth i v 0 + x) :: skipn (S i) v.
  Definition d_put (d : duplex) (x : F) : duplex :=
    mk_duplex (add_at (d_vec d) (d_pos d) x) (S (d_pos d)) false (d_perms d).
  Definition d_get (d : duplex) : F * duplex :=
    (nth (d_pos d) (d_vec d) 0, mk_duplex (d_vec d) (S (d_pos d)) true (d_perms d)).
  Definition d_absorb (d : duplex) (x : F) : duplex :=
    if d_squeezing d then d_put (mk_duplex (d_vec d) 0 false (d_perms d)) x
    else if Nat.eqb (d_pos d) rate then d_put (d_permute d false) x
    else d_put d x.
  Definition d_squeeze (d : duplex) : serr + F * duplex :=
    if d_squeezing d then
      inr (if Nat.eqb (d_pos d) rate then d_get (d_permute d true) else d_get d)
    else if Nat.eqb (d_pos d) 0 then inl ENothingToSqueeze
    else inr (d_get (d_permute d true)).
  (** saving is allowed exactly when input is pending; resuming restarts squeezing *)
  Definition d_save_resume (d : duplex) : serr + duplex :=
    if d_squeezing d then inl EAlreadyInSqueezeMode
    else if Nat.eqb (d_pos d) 0 then inl ENothingAbsorbed
    else inr (d_permute d true).
  Inductive dop := DAbsorb (x : F) | DSqueeze | DSaveResume.
  Fixpoint d_run (ops : list dop) (d : duplex) : serr + list F * duplex :=
    match ops with
    | [] => inr ([], d)
    | DAbsorb x :: r => d_run r (d_absorb d x)
    | DSqueeze :: r =>
        match d_squeeze d with
        | inl e => inl e
        | inr (v, d') => match d_run r d' with inl e => inl e | inr (vs, d'') => inr (v :: vs, d'') end
        end
    | DSaveResume :: r => match d_save_resume d with inl e => inl e | inr d' => d_run r d' end
    end.

  (** ** the textbook one-shot sponge: blocks of [rate] elements are added to the
      rate part, each followed by the permutation; output i is element i mod rate
      of the state after i / rate further permutations *)
  Definition add_block (v block : list F) : list F :=
    map (fun i => nth i v 0 + nth i block 0) (seq 0 (length v)).
  Definition absorb_blocks (blocks : list (list F)) (v : list F) : list F :=
    fold_left (fun v b => pi (add_block v b)) blocks v.
  Definition hash_out (blocks : list (list F)) (i : nat) : F :=
    nth (i mod rate) (Nat.iter (i / rate) pi (absorb_blocks blocks (repeat 0 width))) 0.
End S.
Arguments wf_params {F}. Arguments poseidon {F}. Arguments d_new {F}. Arguments d_absorb {F}. Arguments d_squeeze {F}.
Arguments d_save_resume {F}. Arguments d_run {F}. Arguments DAbsorb {F}. Arguments DSqueeze {F}. Arguments DSaveResume {F}.
Arguments mk_duplex {F}. Arguments d_vec {F}. Arguments d_pos {F}. Arguments d_squeezing {F}. Arguments d_perms {F}.
Arguments add_block {F}. Arguments absorb_blocks {F}. Arguments hash_out {F}. Arguments add_at {F}.
Arguments d_put {F}. Arguments d_get {F}. Arguments d_permute {F}.
