(** Model of [crates/ragu_arithmetic/src/fft.rs] and [domain.rs]. *)
From Coq Require Import List Arith NArith Bool.
From Verif Require Import FieldDef ModDef ArithModel.
Import ListNotations.

(** [u32::reverse_bits] restricted to a width: bit i goes to bit w-1-i. *)
Fixpoint revb (w : nat) (n : N) : N :=
  match w with
  | O => 0%N
  | S w' => ((if N.odd n then 2 ^ N.of_nat w' else 0) + revb w' (N.div2 n))%N
  end.

(** fft.rs:42-47 [bitreverse]: [n.reverse_bits() >> (32 - l)] on u32; the
    subtraction 32 - l underflows for l > 32 (not modelled, N truncates). *)
Definition bitreverse (n l : N) : N :=
  if N.eqb l 0 then 0%N else N.shiftr (revb 32 n) (32 - l).

(** index form used at fft.rs:59: [bitreverse(k as u32, log_n) as usize]
    (the [as u32] cast is the identity for slices of at most 2^32 elements) *)
Definition bitrev (k l : nat) : nat := N.to_nat (bitreverse (N.of_nat k) (N.of_nat l)).

Section Arr.
  Variable A : Type.
  (** write one slot of a slice *)
  Fixpoint upd (l : list A) (i : nat) (v : A) : list A :=
    match l, i with
    | [], _ => []
    | _ :: l', O => v :: l'
    | a :: l', S i' => a :: upd l' i' v
    end.
  (** [slice::swap]; the indices are in range at the call site *)
  Definition swap (l : list A) (i j : nat) : list A :=
    match nth_error l i, nth_error l j with
    | Some a, Some b => upd (upd l i b) j a
    | _, _ => l
    end.
End Arr.
Arguments upd {A} l i v. Arguments swap {A} l i j.

Section FFT.
  Variable F : Field.
  Variable M : FMod F.   (* [R: Ring], fft.rs:5-20 *)

  (** fft.rs:58-63, in-place bit-reversal permutation *)
  Definition bitrev_loop (a : list M) (log_n : nat) : list M :=
    fold_left (fun a k => let rk := bitrev k log_n in if k <? rk then swap a rk k else a)
              (seq 0 (length a)) a.

  (** fft.rs:66-72, twiddle factors by [scan] *)
  Fixpoint twiddles_go (omega w : F) (n : nat) : list F :=
    match n with O => [] | S n' => w :: twiddles_go omega (fmul w omega) n' end.
  Definition twiddles (omega : F) (n : nat) : list F := twiddles_go omega f1 (n / 2).

  (** fft.rs:89-98 / 135-144, butterflies with index [i+1], [i+2], ... *)
  Fixpoint bfly_tail (tw : list F) (tc : nat) (i : nat) (l r : list M) : list M * list M :=
    match l, r with
    | a :: l', b :: r' =>
        let t := mscale (nth ((i + 1) * tc) tw f0) b in
        let '(x, y) := bfly_tail tw tc (i + 1) l' r' in
        (madd a t :: x, msub a t :: y)
    | _, _ => (l, r)
    end.
  (** fft.rs:81-98 / 127-144, one butterfly pass over a chunk split in halves;
      the first pair has twiddle factor one.  An empty half ([split_at_mut(1)]
      panics) yields []. *)
  Definition bfly (tw : list F) (tc : nat) (l r : list M) : list M :=
    match l, r with
    | a :: l', b :: r' =>
        let '(x, y) := bfly_tail tw tc 0 l' r' in
        (madd a b :: x) ++ (msub a b :: y)
    | _, _ => []
    end.

  (** fft.rs:78-99, one round over [chunks_mut(chunk)]; fuel = length *)
  Fixpoint chunk_pass (fuel : nat) (tw : list F) (tc chunk : nat) (a : list M) : list M :=
    match fuel with
    | O => []
    | S fuel' =>
        match a with
        | [] => []
        | _ => let c := firstn chunk a in
               bfly tw tc (firstn (chunk / 2) c) (skipn (chunk / 2) c)
                 ++ chunk_pass fuel' tw tc chunk (skipn chunk a)
        end
    end.

  (** fft.rs:75-102, the serial rounds *)
  Fixpoint iter_rounds (rounds : nat) (tw : list F) (tc chunk : nat) (a : list M) : list M :=
    match rounds with
    | O => a
    | S r => iter_rounds r tw (tc / 2) (chunk * 2) (chunk_pass (S (length a)) tw tc chunk a)
    end.

  (** fft.rs:109-146 [recursive_butterfly_arithmetic] with n = 2^k; k = 0 is not
      reached (the real code would not terminate normally) and yields [].
      The two halves are processed by [multicore::join]; they are disjoint, so
      the result is that of either order. *)
  Fixpoint rec_bfly (k : nat) (tw : list F) (tc : nat) (a : list M) : list M :=
    match k with
    | O => []
    | S O => match a with
             | [x; y] => [madd x y; msub x y]
             | _ => []
             end
    | S k' =>
        let l := rec_bfly k' tw (tc * 2) (firstn (2 ^ k') a) in
        let r := rec_bfly k' tw (tc * 2) (skipn (2 ^ k') a) in
        bfly tw tc l r
    end.

  (** fft.rs:148-155 [log2_floor] (num > 0); the loop runs fewer than [num]
      times *)
  Fixpoint log2_loop (fuel pow num : nat) : nat :=
    match fuel with
    | O => pow
    | S f => if 2 ^ (pow + 1) <=? num then log2_loop f (pow + 1) num else pow
    end.
  Definition log2_floor (num : nat) : nat := log2_loop num 0 num.

  (** fft.rs:52-106 [fft]; [None] models the length assertion of l.56 and the
      assertion num > 0 in [log2_floor]. *)
  Definition fft (threads : nat) (a : list M) (omega : F) (log_n : nat) : option (list M) :=
    if (length a =? 2 ^ log_n) && (0 <? threads) then
      let n := length a in
      let a := bitrev_loop a log_n in
      let tw := twiddles omega n in
      if log_n <=? log2_floor threads
      then Some (iter_rounds log_n tw (n / 2) 2 a)
      else Some (rec_bfly log_n tw 1 a)
    else None.
End FFT.
Arguments bitrev_loop {F M} a log_n. Arguments twiddles {F} omega n.
Arguments bfly_tail {F M} tw tc i l r. Arguments bfly {F M} tw tc l r.
Arguments chunk_pass {F M} fuel tw tc chunk a. Arguments iter_rounds {F M} rounds tw tc chunk a.
Arguments rec_bfly {F M} k tw tc a. Arguments fft {F M} threads a omega log_n.
Arguments twiddles_go {F} omega w n.

(** The constants of [ff::PrimeField] the code relies on.  The equations are
    the documented contract of those constants. *)
Record TwoAdic (F : Field) := mkTwoAdic {
  ta_S : nat;                 (* F::S *)
  ta_root : F;                (* F::ROOT_OF_UNITY *)
  ta_root_inv : F;            (* F::ROOT_OF_UNITY_INV *)
  ta_two_inv : F;             (* F::TWO_INV *)
  ta_S_pos : 1 <= ta_S;
  ta_order : fpow ta_root (2 ^ (ta_S - 1)) = fopp f1;
  ta_inv : fmul ta_root ta_root_inv = f1;
  ta_half : fmul two ta_two_inv = f1
}.
Arguments ta_S {F} t. Arguments ta_root {F} t. Arguments ta_root_inv {F} t.
Arguments ta_two_inv {F} t. Arguments ta_S_pos {F} t. Arguments ta_order {F} t.
Arguments ta_inv {F} t. Arguments ta_half {F} t.

Section Domain.
  Variable F : Field.
  Variable T : TwoAdic F.

  (** domain.rs:8-20 [Domain] *)
  Record Domain := mkDomain {
    d_n : nat; d_log2_n : nat; d_omega : F; d_omega_inv : F; d_n_inv : F }.

  (** domain.rs:22-32 [Default for Domain] *)
  Definition domain_default : Domain :=
    mkDomain (2 ^ ta_S T) (ta_S T) (ta_root T) (ta_root_inv T) (fpow (ta_two_inv T) (ta_S T)).

  (** domain.rs:62-73 [halve]; [None] models its panic *)
  Definition halve (d : Domain) : option Domain :=
    if d_log2_n d =? 0 then None
    else let l := d_log2_n d - 1 in
         Some (mkDomain (2 ^ l) l (sqr (d_omega d)) (sqr (d_omega_inv d)) (dbl (d_n_inv d))).

  Fixpoint halve_times (m : nat) (d : Domain) : option Domain :=
    match m with
    | O => Some d
    | S m' => match halve d with None => None | Some d' => halve_times m' d' end
    end.

  (** domain.rs:41-55 [Domain::new]; [None] models either assertion failing *)
  Definition domain_new (k : nat) : option Domain :=
    if k <=? ta_S T then
      match halve_times (ta_S T - k) domain_default with
      | Some d => if k =? d_log2_n d then Some d else None
      | None => None
      end
    else None.

  (** domain.rs:91-93 [contains] *)
  Definition d_contains (d : Domain) (x : F) : bool := feqb (fpow x (d_n d)) f1.

  (** domain.rs:101-103 [ring_fft] *)
  Definition ring_fft {M : FMod F} (threads : nat) (d : Domain) (a : list M) : option (list M) :=
    fft threads a (d_omega d) (d_log2_n d).
  (** domain.rs:110-116 [ring_ifft] *)
  Definition ring_ifft {M : FMod F} (threads : nat) (d : Domain) (a : list M) : option (list M) :=
    match fft threads a (d_omega_inv d) (d_log2_n d) with
    | Some r => Some (map (mscale (d_n_inv d)) r)
    | None => None
    end.
  (** domain.rs:124-135 [fft], [ifft]: the ring is the field itself *)
  Definition d_fft threads d (a : list F) : option (list F) := ring_fft (M := FieldMod F) threads d a.
  Definition d_ifft threads d (a : list F) : option (list F) := ring_ifft (M := FieldMod F) threads d a.

  (** [x - omega^i] by scan, domain.rs:188-194 *)
  Fixpoint ell_denoms (omega x acc : F) (m : nat) : list F :=
    match m with O => [] | S m' => fsub x acc :: ell_denoms omega x (fmul acc omega) m' end.
  (** domain.rs:202-209, scan over the inverted denominators *)
  Fixpoint ell_out (omega num : F) (dens : list F) : list F :=
    match dens with [] => [] | d :: ds => fmul num d :: ell_out omega (fmul num omega) ds end.
  (** [ff::BatchInverter]: every nonzero element is replaced by its inverse and
      zero elements are left unchanged. *)
  Definition batch_invert (l : list F) : list F :=
    map (fun x => if feqb x f0 then x else finv x) l.
  (** domain.rs:171-211 [ell].  Outer [None]: the assertion amount <= n fails;
      inner [None]: the function returns [None]. *)
  Definition ell (d : Domain) (x : F) (amount : nat) : option (option (list F)) :=
    if amount <=? d_n d then
      let xn := fpow x (d_n d) in
      if feqb xn f1 then Some None
      else Some (Some (ell_out (d_omega d) (fmul (fsub xn f1) (d_n_inv d))
                        (batch_invert (ell_denoms (d_omega d) x f1 amount))))
    else None.
End Domain.
Arguments d_n {F} d. Arguments d_log2_n {F} d. Arguments d_omega {F} d.
Arguments d_omega_inv {F} d. Arguments d_n_inv {F} d.
Arguments domain_new {F} T k. Arguments domain_default {F} T. Arguments halve {F} d.
Arguments halve_times {F} m d. Arguments d_contains {F} d x.
Arguments ring_fft {F M} threads d a. Arguments ring_ifft {F M} threads d a.
Arguments d_fft {F} threads d a. Arguments d_ifft {F} threads d a.
Arguments ell {F} d x amount. Arguments ell_denoms {F} omega x acc m.
Arguments ell_out {F} omega num dens. Arguments batch_invert {F} l.
